(** * C130-C132: waitFor() of a Task whose coroutine ends on another thread *)
From stdpp Require Import prelude.
From Verif Require Import WaitRaceModel.

Local Ltac run := repeat match goal with |- context [wr_tr (nplay ?l ?s)] => let t := eval vm_compute in (wr_tr (nplay l s)) in change (wr_tr (nplay l s)) with t end.
Local Ltac mem := rewrite ?elem_of_cons, ?elem_of_nil; first [intros H; by repeat destruct H as [H|H]|repeat (reflexivity || (left; reflexivity) || right)].

Section waitrace.
Context {V : Type}.
Notation wrst := (wrst V).

(** ** Vocabulary, about the trace of events (newest first) *)
(** The event loop was started after the coroutine had told it to quit. *)
Definition quit_lost (tr : list (wrev V)) : Prop := ∃ v u, tr = v ++ NExec :: u ∧ NQuit ∈ u.
(** waitFor() has decided to start the event loop but not yet done so, and was told to quit meanwhile. *)
Definition quit_early (tr : list (wrev V)) : Prop := NQuit ∈ tr ∧ NChecked ∈ tr ∧ NExec ∉ tr ∧ ∀ o, NReturn o ∉ tr.

(** ** Invariant *)
Definition e_rank (e : ephase) : nat := match e with EWaiting => 0 | EStored => 1 | EFinished => 2 | EQuitting => 3 | EDone => 4 end.
Record inv (s : wrst) : Prop := Inv {
  n_out : wr_e s = EWaiting <-> wr_out s = None;
  n_fin : wr_fin s = true <-> 2 ≤ e_rank (wr_e s);
  n_stored v : NStored v ∈ wr_tr s <-> wr_out s = Some v;
  n_finished : NFinished ∈ wr_tr s <-> 2 ≤ e_rank (wr_e s);
  n_quit : NQuit ∈ wr_tr s <-> 3 ≤ e_rank (wr_e s);
  n_woken : NWoken ∈ wr_tr s <-> wr_e s = EDone;
  n_checked : NChecked ∈ wr_tr s -> wr_w s ≠ WCalled;
  n_checked2 : wr_w s ≠ WCalled -> wr_w s ≠ WGone -> NChecked ∈ wr_tr s;
  n_exec : NExec ∈ wr_tr s -> wr_w s = WLooping ∨ wr_w s = WSleeping ∨ wr_w s = WGone;
  n_exec2 : wr_w s = WLooping ∨ wr_w s = WSleeping -> NExec ∈ wr_tr s ∧ (wr_exit s = true <-> 3 ≤ e_rank (wr_e s) ∧ ¬ quit_lost (wr_tr s));
  n_lost : quit_lost (wr_tr s) -> wr_w s = WLooping ∨ wr_w s = WSleeping;
  n_wake : wr_e s = EDone -> wr_w s = WSleeping -> wr_exit s = true -> wr_wake s = true;
  n_ret o : NReturn o ∈ wr_tr s <-> wr_w s = WGone ∧ o = wr_out s;
  n_gone : wr_w s = WGone -> is_Some (wr_out s) ∧ wr_fin s = true;
  n_ok : NUseAfterFree ∉ wr_tr s }.

Lemma in_ne (e e' : wrev V) tr : e ≠ e' -> e ∈ e' :: tr <-> e ∈ tr.
Proof. intros N. rewrite elem_of_cons. split; [intros [?|?]; done|by right]. Qed.
Lemma lost_ne (e : wrev V) tr : e ≠ NExec -> quit_lost (e :: tr) <-> quit_lost tr.
Proof.
  intros N. split.
  - intros (v & u & E & H). destruct v as [|x v]; [by injection E as -> _|]. injection E as <- ->. by exists v, u.
  - intros (v & u & -> & H). by exists (e :: v), u.
Qed.
Lemma lost_exec (tr : list (wrev V)) : quit_lost (NExec :: tr) <-> NQuit ∈ tr ∨ quit_lost tr.
Proof.
  split.
  - intros (v & u & E & H). destruct v as [|x v]; [injection E as <-; by left|]. injection E as <- ->. right. by exists v, u.
  - intros [H|(v & u & -> & H)]; [by exists [], tr|by exists (NExec :: v), u].
Qed.

Lemma inv_0 : inv waitrace0.
Proof.
  assert (∀ e : wrev V, e ∉ []) as N by apply not_elem_of_nil. assert (¬ quit_lost []) as L. { intros (v & u & E & _). by destruct v. }
  constructor; simpl; try done; try (intros; split; try done; try lia; by intros ?%N); try (by intros ?%N); try (by intros ?%L).
  - intros [?|?]; done.
  - intros o. split; [by intros ?%N|by intros [? _]].
Qed.

Lemma lost_quit tr : quit_lost tr -> NQuit ∈ tr.
Proof. intros (v & u & -> & H). rewrite elem_of_app, elem_of_cons. by right; right. Qed.

Local Ltac go := solve [intuition (congruence || lia)].
Lemma step_inv s s' a : inv s -> nperform a s = Some s' ->
  inv s' ∨ (wr_bad s' = true ∧ wr_w s = WGone ∧ wr_w s' = WGone ∧ wr_tr s' = NUseAfterFree :: wr_tr s).
Proof.
  intros [] E. unfold nperform in E. destruct (wr_bad s); [done|]. pose proof (lost_quit (wr_tr s)) as LQ.
  destruct s as [w e fin ex wake out bad tr]; simpl in *.
  destruct a; repeat (case_match; try discriminate); simplify_eq; unfold uses, returns; simpl in *; repeat case_match; simplify_eq; simpl in *;
    try (right; by split_and!); left.
  all: constructor; simpl in *; intros; rewrite ?lost_ne, ?lost_exec in * by done; rewrite ?elem_of_cons in *.
  all: repeat match goal with H : ∀ o : option V, _, o : option V |- _ => specialize (H o) | H : ∀ v : V, _, v : V |- _ => specialize (H v) end.
  all: try done.
  all: assert (2 ≤ 2 ∧ 2 ≤ 3 ∧ 2 ≤ 4 ∧ 3 ≤ 3 ∧ 3 ≤ 4) as (R22 & R23 & R24 & R33 & R34) by lia.
  all: try first [clear -n_out0; go|clear -n_fin0 R22 R23 R24; go|clear -n_stored0 n_out0; go|clear -n_finished0 R22 R23 R24; go|clear -n_quit0 R33 R34; go|clear -n_woken0; go
    |clear -n_checked0; go|clear -n_checked3; go|clear -n_exec0 n_exec3; go|clear -n_lost0 LQ n_quit0 n_exec0; go|clear -n_exec3 n_quit0 LQ R33 R34 n_exec0; go|clear -n_wake0; go|clear -n_ret0; go|clear -n_gone0; go|clear -n_ok0; go].
  all: try go.
  all: try (destruct out; [|exfalso; destruct e; simpl in *; go]).
  all: try (split; [by eexists|]; intuition (congruence || lia)).
  split; [by eexists|]. apply n_fin0. destruct (n_exec3 (or_introl eq_refl)) as [_ [X _]]. destruct (X eq_refl). lia.
Qed.

(** A reachable state: either the invariant holds, or the last event is the use after free. *)
Lemma reach_inv s : nreach s ->
  (wr_bad s = false ∧ inv s) ∨ (wr_bad s = true ∧ ∃ s0 a, nreach s0 ∧ inv s0 ∧ wr_bad s0 = false ∧ nperform a s0 = Some s ∧ wr_w s0 = WGone ∧ wr_w s = WGone ∧ wr_tr s = NUseAfterFree :: wr_tr s0).
Proof.
  assert (∀ (s : wrst) s' a, nperform a s = Some s' -> wr_bad s = false) as NB. { intros s0 s' a E. unfold nperform in E. by destruct (wr_bad s0). }
  induction 1 as [|s0 s1 a R IH E]; [left; split; [done|apply inv_0]|].
  pose proof (NB _ _ _ E) as B. destruct IH as [[_ I]|(? & _)]; [|congruence].
  destruct (step_inv _ _ _ I E) as [I'|(B' & G & G' & T)].
  - left. split; [|done]. destruct (wr_bad s1) eqn:B1; [|done]. exfalso. clear NB. apply (n_ok _ I').
    unfold nperform, uses, returns in E. rewrite B in E. destruct a; repeat (case_match; try discriminate); simplify_eq; simpl in *; try discriminate; rewrite elem_of_cons; by left.
  - right. split; [done|]. by exists s0, a.
Qed.

Lemma nplay_reach l (s : wrst) : nreach s -> nreach (nplay l s).
Proof. revert s. induction l as [|a l IH]; intros s R; [done|]. simpl. destruct (nperform a s) as [s'|] eqn:E; [|done]. apply IH. by eapply nreach_S. Qed.

(** ** C130: waitFor() of a Task returns when the Task has ended, also if it ends on another thread. Refuted *)
(** Whatever the threads do from here, waitFor() returns. *)
Inductive must_return : wrst -> Prop :=
  | must_now s o : NReturn o ∈ wr_tr s -> must_return s
  | must_later s : (∃ a s', nperform a s = Some s') -> (∀ a s', nperform a s = Some s' -> must_return s') -> must_return s.

(** An event loop that is started after it was told to quit runs for ever. *)
Theorem C130_lost s o : nreach s -> quit_lost (wr_tr s) -> NReturn o ∉ wr_tr s.
Proof.
  intros R L Ret. destruct (reach_inv _ R) as [[_ I]|(_ & s0 & a & R0 & I0 & _ & _ & G & _ & T)].
  - destruct (n_lost _ I L) as [E|E]; destruct (proj1 (n_ret _ I o) Ret); congruence.
  - rewrite T in L. apply lost_ne in L; [|done]. destruct (n_lost _ I0 L); congruence.
Qed.

Theorem C130_refuted (v : V) :
  ¬ (∀ s, nreach s -> NWoken ∈ wr_tr s -> must_return s).
Proof.
  intros A. set (s := nplay [NACheck; NAStore v; NAFinish; NAQuit; NAInterrupt; NAExec] waitrace0).
  assert (nreach s) as R. { refine (nplay_reach _ _ nreach_0). }
  assert (NWoken ∈ wr_tr s) as W by (unfold s; run; mem). pose proof (A _ R W) as M. clear A W.
  assert (quit_lost (wr_tr s)) as L. { exists [], [NWoken; NQuit; NFinished; NStored v; NChecked]. split; [done|mem]. }
  clearbody s. induction M as [s o Ret|s [a [s' E]] _ IH]; [by eapply C130_lost|].
  eapply IH; [exact E|by eapply nreach_S|]. destruct L as (v' & u & T & Q).
  assert (∃ l, wr_tr s' = l ++ wr_tr s) as [l ->].
  { unfold nperform, uses, returns in E. repeat (case_match; try discriminate); simplify_eq; simpl; first [by exists []|by eexists [_]]. }
  rewrite T. exists (l ++ v'), u. by rewrite <- app_assoc.
Qed.

(** Apart from that, it returns. *)
Theorem C130_returns s : nreach s -> NWoken ∈ wr_tr s -> ¬ quit_lost (wr_tr s) -> ¬ quit_early (wr_tr s) -> must_return s.
Proof.
  intros R W L Q. destruct (reach_inv _ R) as [[B I]|(_ & s0 & a & _ & I0 & _ & _ & G & _ & T)].
  2: { apply must_now with (wr_out s0). rewrite T. right. by apply (n_ret _ I0). }
  pose proof (proj1 (n_woken _ I) W) as D. destruct (wr_w s) eqn:Ew.
  - assert (wr_fin s = true) as F. { apply (n_fin _ I). rewrite D. simpl. lia. }
    apply must_later.
    + exists NACheck, (returns s). unfold nperform. by rewrite B, Ew, F.
    + intros a s' E. apply must_now with (wr_out s). unfold nperform in E. rewrite B in E. destruct a; repeat (case_match; try discriminate); simplify_eq; simpl; try congruence. by left.
  - exfalso. apply Q. split_and!.
    + apply (n_quit _ I). rewrite D. simpl. lia.
    + apply (n_checked2 _ I); congruence.
    + intros X. destruct (n_exec _ I X) as [?|[?|?]]; congruence.
    + intros o X. destruct (proj1 (n_ret _ I o) X). congruence.
  - assert (wr_exit s = true) as X. { apply (n_exec2 _ I); [by left|]. split; [rewrite D; simpl; lia|done]. }
    apply must_later.
    + exists NALook, (returns s). unfold nperform. by rewrite B, Ew, X.
    + intros a s' E. apply must_now with (wr_out s). unfold nperform in E. rewrite B in E. destruct a; repeat (case_match; try discriminate); simplify_eq; simpl; try congruence. by left.
  - assert (wr_exit s = true) as X. { apply (n_exec2 _ I); [by right|]. split; [rewrite D; simpl; lia|done]. }
    assert (∀ a s', nperform a s = Some s' -> wr_bad s' = false ∧ wr_w s' = WLooping ∧ wr_exit s' = true ∧ wr_e s' = EDone) as H.
    { intros a s' E. unfold nperform in E. rewrite B in E. destruct a; repeat (case_match; try discriminate); simplify_eq; simpl; try congruence; done. }
    apply must_later.
    + eexists NAEvent, _. unfold nperform. by rewrite B, Ew.
    + intros a s' E. apply H in E as (B' & Ew' & X' & D'). apply must_later.
      * exists NALook, (returns s'). unfold nperform. by rewrite B', Ew', X'.
      * intros a' s2 E. apply must_now with (wr_out s'). unfold nperform in E. rewrite B' in E. destruct a'; repeat (case_match; try discriminate); simplify_eq; simpl; try congruence. by left.
  - apply must_now with (wr_out s). by apply (n_ret _ I).
Qed.

(** ** C131: what waitFor() returns or throws is what the coroutine ended with, and that at most once *)
Definition returned (e : wrev V) : bool := match e with NReturn _ => true | _ => false end.
Definition stored (e : wrev V) : bool := match e with NStored _ => true | _ => false end.

Lemma counts s : nreach s -> length (filter (λ e, returned e) (wr_tr s)) = match wr_w s with WGone => 1 | _ => 0 end ∧
  length (filter (λ e, stored e) (wr_tr s)) = match wr_e s with EWaiting => 0 | _ => 1 end.
Proof.
  induction 1 as [|s s' a R [IH1 IH2] E]; [done|].
  unfold nperform, uses, returns in E. repeat (case_match; try discriminate); simplify_eq; simpl in *; rewrite ?filter_cons in *; simpl in *; repeat case_match; simpl in *; try done; try congruence; try lia.
Qed.

Theorem C131_waited_outcome s : nreach s ->
  (∀ o l l', wr_tr s = l' ++ NReturn o :: l -> ∃ v, o = Some v ∧ NStored v ∈ l ∧ NFinished ∈ l) ∧
  length (filter (λ e, returned e) (wr_tr s)) ≤ 1 ∧ length (filter (λ e, stored e) (wr_tr s)) ≤ 1.
Proof.
  intros R. split; [|destruct (counts _ R) as [-> ->]; split; case_match; lia].
  induction R as [|s s' a R IH E]; intros o l l' T; [by destruct l'|].
  assert (∀ e, wr_tr s' = e :: wr_tr s -> (∀ o, e ≠ NReturn o) -> ∃ v, o = Some v ∧ NStored v ∈ l ∧ NFinished ∈ l) as Old.
  { intros e T' N. rewrite T' in T. destruct l' as [|x l']; [by injection T as -> _; destruct (N o)|]. injection T as _ T. by eapply IH. }
  assert (wr_tr s' = wr_tr s -> ∃ v, o = Some v ∧ NStored v ∈ l ∧ NFinished ∈ l) as Same.
  { intros T'. rewrite T' in T. by eapply IH. }
  assert (wr_fin s = true ∨ (wr_w s = WLooping ∧ wr_exit s = true) -> wr_bad s = false -> wr_tr s' = NReturn (wr_out s) :: wr_tr s -> ∃ v, o = Some v ∧ NStored v ∈ l ∧ NFinished ∈ l) as New.
  { intros F B T'. destruct (reach_inv _ R) as [[_ I]|(B' & _)]; [|congruence].
    assert (2 ≤ e_rank (wr_e s)) as Rk. { destruct F as [F|[F X]]; [by apply (n_fin _ I)|]. destruct (proj1 (proj2 (n_exec2 _ I (or_introl F))) X). lia. }
    rewrite T' in T. destruct l' as [|x l']; [|injection T as _ T; by eapply IH]. injection T as <- <-.
    destruct (wr_out s) as [v|] eqn:O; [|apply (n_out _ I) in O; rewrite O in Rk; simpl in Rk; lia].
    exists v. split_and!; [done|by apply (n_stored _ I)|by apply (n_finished _ I)]. }
  unfold nperform, uses, returns in E. repeat (case_match; try discriminate); simplify_eq; simpl in *;
    first [by apply Same|by eapply Old|apply New; try done; auto].
Qed.

(** ** C132: the ending thread uses nothing that waitFor() has destroyed. Refuted *)
Theorem C132_refuted (v : V) :
  (∃ s, nreach s ∧ NReturn (Some v) ∈ wr_tr s ∧ NChecked ∉ wr_tr s ∧ NUseAfterFree ∈ wr_tr s) ∧
  (∃ s, nreach s ∧ NReturn (Some v) ∈ wr_tr s ∧ NExec ∈ wr_tr s ∧ NUseAfterFree ∈ wr_tr s).
Proof.
  assert (∀ l, nreach (nplay l (@waitrace0 V))) as P. { intros l. apply nplay_reach, nreach_0. }
  split.
  - exists (nplay [NAStore v; NAFinish; NACheck; NAQuit] waitrace0). split; [apply P|]. clear P.
    run. rewrite !elem_of_cons, !elem_of_nil. split_and!; try (intros H; by repeat destruct H as [H|H]); repeat (reflexivity || (left; reflexivity) || right).
  - exists (nplay [NACheck; NAExec; NALook; NAStore v; NAFinish; NAQuit; NAEvent; NALook; NAInterrupt] waitrace0). split; [apply P|]. clear P.
    run. rewrite !elem_of_cons, !elem_of_nil. split_and!; repeat (reflexivity || (left; reflexivity) || right).
Qed.

(** It happens exactly when waitFor() returns before quit() is over; then nothing can avert it. *)
Theorem C132_only_then (s : wrst) : nreach s -> NUseAfterFree ∈ wr_tr s ->
  ∃ o l, wr_tr s = NUseAfterFree :: l ∧ NUseAfterFree ∉ l ∧ NReturn o ∈ l ∧ NWoken ∉ l ∧ ∀ a, nperform a s = None.
Proof.
  intros R U. destruct (reach_inv _ R) as [[_ I]|(B & s0 & a & _ & I0 & B0 & E & G & _ & T)]; [by destruct (n_ok _ I)|].
  exists (wr_out s0), (wr_tr s0). split_and!; [done|apply (n_ok _ I0)|by apply (n_ret _ I0)| |intros a'; unfold nperform; by rewrite B].
  intros D%(n_woken _ I0). unfold nperform in E. rewrite B0, D, G in E. by destruct a.
Qed.

Theorem C132_unavoidable (s : wrst) o : nreach s -> NReturn o ∈ wr_tr s -> NWoken ∉ wr_tr s -> NUseAfterFree ∉ wr_tr s ->
  (∃ a s', nperform a s = Some s') ∧ ∀ a s', nperform a s = Some s' -> NUseAfterFree ∈ wr_tr s'.
Proof.
  intros R Ret W U. destruct (reach_inv _ R) as [[B I]|(_ & s0 & a & _ & _ & _ & _ & _ & _ & T)].
  2: { destruct U. rewrite T. by left. }
  destruct (proj1 (n_ret _ I o) Ret) as [G _]. rewrite (n_woken _ I) in W.
  destruct (n_gone _ I G) as [[v O] F]. apply (n_fin _ I) in F. split.
  - destruct (wr_e s) eqn:Ee; simpl in F; try lia; [eexists NAQuit, _|eexists NAInterrupt, _|done]; unfold nperform; by rewrite B, Ee.
  - intros a s' E. unfold nperform, uses in E. rewrite B, G in E. destruct a, (wr_e s); simplify_eq; simpl; by left.
Qed.
End waitrace.

(** ** Examples *)
(** The usual case: the loop sleeps, quit() is called and wakes it. *)
Definition ex_usual : list (wract nat) := [NACheck; NAExec; NALook; NAEvent; NALook; NAStore 7; NAFinish; NAQuit; NAInterrupt; NAWake; NALook].
Example ex130_usual : wr_tr (nplay ex_usual waitrace0) = [NReturn (Some 7); NWoken; NQuit; NFinished; NStored 7; NExec; NChecked].
Proof. reflexivity. Qed.
Example ex130_met : let s := nplay (take 9 ex_usual) waitrace0 in
  nreach s ∧ NWoken ∈ wr_tr s ∧ ¬ quit_lost (wr_tr s) ∧ ¬ quit_early (wr_tr s) ∧ must_return s.
Proof.
  cbv zeta. set (s := nplay _ _).
  assert (nreach s) as R. { refine (nplay_reach _ _ nreach_0). }
  assert (¬ quit_lost (wr_tr s)) as L.
  { unfold s. run. rewrite !lost_ne by done. rewrite lost_exec, lost_ne by done. intros [H|(v & u & E & _)]; [revert H; mem|]. destruct v as [|? [|]]; discriminate. }
  assert (¬ quit_early (wr_tr s)) as Q. { intros (_ & _ & N & _). apply N. unfold s. run. mem. }
  assert (NWoken ∈ wr_tr s) as W by (unfold s; run; mem). split_and!; try done. by apply C130_returns.
Qed.
(** The ending is over before waitFor() looks. *)
Example ex130_first : wr_tr (nplay [NAStore 7; NAFinish; NAQuit; NAInterrupt; NACheck] waitrace0) = [NReturn (Some 7); NWoken; NQuit; NFinished; NStored 7].
Proof. reflexivity. Qed.
(** Told to quit between the look at coroutineFinished and exec(): lost. *)
Definition ex_hang : list (wract nat) := [NACheck; NAStore 7; NAFinish; NAQuit; NAInterrupt; NAExec; NALook; NAWake; NALook; NAEvent; NALook].
Example ex130_hang : let s := nplay ex_hang waitrace0 in nreach s ∧ quit_lost (wr_tr s) ∧ wr_w s = WSleeping.
Proof.
  cbv zeta. split_and!; [refine (nplay_reach _ _ nreach_0)| |done].
  run. eexists [], _. split; [done|]. mem.
Qed.
Example ex132_met : let s := nplay [NAStore 7; NAFinish; NACheck] waitrace0 in
  nreach s ∧ NReturn (Some 7) ∈ wr_tr s ∧ NWoken ∉ wr_tr s ∧ NUseAfterFree ∉ wr_tr s.
Proof. cbv zeta. split_and!; [refine (nplay_reach _ _ nreach_0)|run; mem..]. Qed.

Print Assumptions C130_lost. Print Assumptions C130_refuted. Print Assumptions C130_returns.
Print Assumptions C131_waited_outcome.
Print Assumptions C132_refuted. Print Assumptions C132_only_then. Print Assumptions C132_unavoidable.
