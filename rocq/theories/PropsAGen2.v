(** * Property theorems C101-C103: exactly when the operations of AsyncGenerator are defined.
    Vocabulary as in PropsAGen.v. *)
From stdpp Require Import gmap list.
From Verif Require Import TaskRun.
From Verif Require Import AGenModel AGenSpec AGenInv AGenStep AGenFacts AGenWait AGenLoop AGenOwn AGenWalk AGenMore AGenRun PropsAGen.

(** ** C101 *)
(** co_await begin() is defined iff the object is empty or its body is suspended before its first statement or at a
    co_yield (not finished, not running, not suspended in a co_await). *)
Theorem C101_begin_defined_iff {V E} (s : astate V E) w g ls c st h : areach s -> astack s = ARun (Co w) (ABegin g ls c) :: st -> agens s !! g = Some h ->
  (∃ s', astep s = ANext s') <->
  match h with None => True | Some f => aphase_of f (atrace s) = QInit ∨ ∃ v, aphase_of f (atrace s) = QYield v end.
Proof. exact (C62_begin_defined_iff s w g ls c st h). Qed.
Print Assumptions C101_begin_defined_iff.
Example ex_C101_begin_defined_iff : ∃ s w g ls c st f, areach s ∧ astack (V:=nat) (E:=nat) s = ARun (Co w) (ABegin g ls c) :: st ∧
  agens s !! g = Some (Some f) ∧ aphase_of f (atrace s) = QInit.
Proof. exists (arun_to [] (main begin_done_a) 2). do 6 eexists. split; [apply arun_to_reach|]. split_and!; vm_compute; reflexivity. Qed.

(** co_await ++it is defined iff the iterator has a body that is suspended at a co_yield. *)
Theorem C101_increment_defined_iff {V E} (s : astate V E) w i ls c st h : areach s -> astack s = ARun (Co w) (AInc i ls c) :: st -> aiters s !! i = Some h ->
  (∃ s', astep s = ANext s') <-> ∃ f v, h = Some f ∧ aphase_of f (atrace s) = QYield v.
Proof. exact (C62_increment_defined_iff s w i ls c st h). Qed.
Print Assumptions C101_increment_defined_iff.

(** * is defined iff the same holds. *)
Theorem C101_deref_defined_iff {V E} (s : astate V E) w i c st h : areach s -> astack s = ARun w (ADeref i c) :: st -> aiters s !! i = Some h ->
  (∃ s', astep s = ANext s') <-> ∃ f v, h = Some f ∧ aphase_of f (atrace s) = QYield v.
Proof.
  intros HR Hst Hi. pose proof (inv_reach _ HR) as HI. pose proof HI as (HH & HO & _ & HIt). split.
  - unfold astep. rewrite Hst. cbn. rewrite Hi. destruct h as [f|]; [|by intros [? ?]].
    destruct (aheap s !! f) as [fr|] eqn:Hf; [|by intros [? ?]].
    pose proof (h_some _ _ _ _ _ _ HH Hf) as [Hp _]. destruct (anonnull fr); [|by intros [? ?]].
    destruct (astat fr); try (by intros [? ?]). eauto.
  - intros (f & v & -> & Hp). destruct (yield_frame f v s HI Hp) as (fr & ls & p & Hf & Hs & Hn).
    unfold astep. rewrite Hst. cbn. rewrite Hi, Hf, Hn, Hs. eauto.
Qed.
Print Assumptions C101_deref_defined_iff.
Example ex_C101_deref_defined_iff : ∃ s w i c st f v, areach s ∧ astack (V:=nat) (E:=nat) s = ARun w (ADeref i c) :: st ∧
  aiters s !! i = Some (Some f) ∧ aphase_of f (atrace s) = QYield v.
Proof. exists (arun_to [] (main (consumer aprod2_throw)) 6). do 6 eexists. split; [apply arun_to_reach|]. split_and!; vm_compute; reflexivity. Qed.

(** ** C102: destruction *)
(** Destroying an AsyncGenerator object is defined iff its body is not executing at this moment. *)
Theorem C102_destroy_defined_iff {V E} (s : astate V E) w g p st f : areach s -> astack s = ARun w (ADrop g p) :: st -> agens s !! g = Some (Some f) ->
  (∃ s', astep s = ANext s') <-> aphase_of f (atrace s) ≠ QRun.
Proof.
  intros HR Hst Hg. pose proof (inv_reach _ HR) as (HH & HO & _). destruct (o_gh _ _ _ _ HO g f Hg) as (fr & Hf & _).
  pose proof (h_some _ _ _ _ _ _ HH Hf) as [Hp _]. unfold astep. rewrite Hst. cbn. unfold adrop. cbn. rewrite Hg. unfold adestroy. cbn. rewrite Hf, Hp.
  destruct (astat fr) as [b| |v ls c|pid sf ls c|f' ls c|i f' ls c|]; cbn; split; try (by eauto); try (by intros _); by intros [? ?].
Qed.
Print Assumptions C102_destroy_defined_iff.
Example ex_C102_destroy_defined_iff : ∃ s w g p st f, areach s ∧ astack (V:=nat) (E:=nat) s = ARun w (ADrop g p) :: st ∧
  agens s !! g = Some (Some f) ∧ aphase_of f (atrace s) = QLeaf.
Proof. exists (arun_to [] destroy_waiting_safe 4). do 5 eexists. split; [apply arun_to_reach|]. split_and!; vm_compute; reflexivity. Qed.

(** The completion of something a coroutine awaited is defined iff this coroutine was not destroyed... *)
Theorem C102_completion_defined_iff {V E} (s : astate V E) pid v f : areach s -> astack s = [] -> apend s !! pid = Some f ->
  (∃ s', aenv_step (EvFire pid v) s = ANext s') <-> aphase_of f (atrace s) ≠ QGone.
Proof.
  intros HR Hst Hp. pose proof (inv_reach _ HR) as (HH & _ & HP & _). unfold aenv_step. rewrite Hst, Hp.
  destruct (p_owner _ _ _ _ HP pid f Hp) as [(fr & sf & ls & c & Hf & Hs)|(Hf & Hg & _)].
  - rewrite Hf, Hs, decide_True by done. split; [|eauto]. intros _ Hq.
    destruct (h_some _ _ _ _ _ _ HH Hf) as [Hq' _]. rewrite Hs in Hq'. cbn in Hq'. congruence.
  - rewrite Hf. split; [by intros [? ?]|]. done.
Qed.
Print Assumptions C102_completion_defined_iff.
Example ex_C102_completion_defined_iff : areach (arun destroy_waiting 100) ∧ astack (arun destroy_waiting 100) = [] ∧
  apend (arun destroy_waiting 100) !! 0 = Some 1.
Proof. split; [apply arun_reach|split; vm_compute; reflexivity]. Qed.

(** ... and if it awaited something that forgets destroyed coroutines (anything but a Task), its destruction withdraws the
    completion, so that no undefined one is left. *)
Theorem C102_undefined_only_if_unsafe {V E} (s : astate V E) e r : areach s -> aenv_step e s = AUB r ->
  ∃ pid v f, e = EvFire pid v ∧ apend s !! pid = Some f ∧ aphase_of f (atrace s) = QGone ∧ AELeaf f false ∈ atrace s.
Proof.
  intros HR Hs. destruct (C32_only_unsafe_awaits s e r HR Hs) as (pid & v & f & ? & ? & Hg & ? & _).
  by exists pid, v, f.
Qed.
Print Assumptions C102_undefined_only_if_unsafe.
Theorem C102_nothing_after_destruction {V E} (s : astate V E) f l1 l2 : areach s -> atrace s = l1 ++ AEDestroy f :: l2 ->
  (∀ e, e ∈ l1 -> by_co e ≠ Some f) ∧ (∀ c j, AEAdv c f j ∉ l1) ∧ ∀ v, AEFire f v ∉ l1.
Proof. exact (C32_nothing_after_destruction s f l1 l2). Qed.
Print Assumptions C102_nothing_after_destruction.
