(** * C126-C128: co_await of a Task whose coroutine ends on another thread *)
From stdpp Require Import prelude.
From Verif Require Import RaceModel.

(** ** Vocabulary, about the trace of events (newest first) *)
Definition about (i : nat) (e : rev) : bool :=
  match e with EAwait j | ESuspended j | EGot j _ => bool_decide (j = i) | _ => false end.
Definition quiet (i : nat) (w : list rev) : Prop := Forall (λ e, about i e = false) w.
(** Coroutine [i] has found the Task unfinished, and has not suspended yet. *)
Definition evaluating (i : nat) (tr : list rev) : Prop := ∃ w u, tr = w ++ EAwait i :: u ∧ quiet i w.
(** Coroutine [i] is suspended in the co_await; [w]: since then, [u]: before. *)
Definition suspended (i : nat) (w u tr : list rev) : Prop := tr = w ++ ESuspended i :: u ∧ quiet i w.
Definition idle (i : nat) (tr : list rev) : Prop := quiet i tr ∨ ∃ b w u, tr = w ++ EGot i b :: u ∧ quiet i w.

(** How often the frame was destroyed. *)
Fixpoint freed (tr : list rev) : nat := match tr with [] => 0 | EFreed :: t => S (freed t) | _ :: t => freed t end.

(** ** Invariant *)
Definition pending (f : fphase) (l0 : list nat) : list nat := match f with FRun | FCopying => l0 | FCopied l | FLoop l => l | FOver => [] end.
Definition copied (f : fphase) : bool := match f with FRun | FCopying => false | _ => true end.

Record inv (s : rst) : Prop := Inv {
  v_ref : r_ref s = (if r_task s then 1 else 0) + (match r_fin s with FOver => 0 | _ => 1 end);
  v_frame : r_frame s = true <-> r_ref s ≠ 0;
  v_mid i : i ∈ r_mid s <-> r_aw s i = AChecked ∨ r_aw s i = APushing;
  v_task : r_mid s ≠ [] -> r_task s = true;
  v_push i : r_push s = Some i <-> r_aw s i = APushing;
  v_copying : r_fin s = FCopying -> r_push s = None;
  v_list : NoDup (pending (r_fin s) (r_list s));
  v_pend i : i ∈ pending (r_fin s) (r_list s) -> r_aw s i = AWait;
  v_aw i : match r_aw s i with
    | ANone => idle i (r_tr s)
    | AChecked | APushing => evaluating i (r_tr s)
    | AWait => ∃ w u, suspended i w u (r_tr s) ∧ (i ∈ pending (r_fin s) (r_list s) <-> ECopied ∉ u)
    end;
  v_ret : EReturned ∈ r_tr s <-> r_fin s ≠ FRun;
  v_cop : ECopied ∈ r_tr s <-> copied (r_fin s) = true;
  v_over : EOver ∈ r_tr s <-> r_fin s = FOver;
  v_drop : EDropped ∈ r_tr s <-> r_task s = false;
  v_clean : EUseAfterFree ∉ r_tr s ∧ ERace ∉ r_tr s;
  v_freed : freed (r_tr s) = if r_frame s then 0 else 1 }.

Lemma v_aw_keep i p f l0 tr f' l0' e : about i e = false -> (p = AWait -> i ∈ pending f' l0' <-> i ∈ pending f l0) ->
  match p with ANone => idle i tr | AChecked | APushing => evaluating i tr | AWait => ∃ w u, suspended i w u tr ∧ (i ∈ pending f l0 <-> ECopied ∉ u) end ->
  match p with ANone => idle i (e :: tr) | AChecked | APushing => evaluating i (e :: tr) | AWait => ∃ w u, suspended i w u (e :: tr) ∧ (i ∈ pending f' l0' <-> ECopied ∉ u) end.
Proof.
  intros A H. destruct p.
  - intros [Q|(b & w & u & -> & Q)]; [left; by constructor|right]. exists b, (e :: w), u. split; [done|by constructor].
  - intros (w & u & -> & Q). exists (e :: w), u. split; [done|by constructor].
  - intros (w & u & -> & Q). exists (e :: w), u. split; [done|by constructor].
  - intros (w & u & (-> & Q) & X). exists (e :: w), u. split; [split; [done|by constructor]|]. rewrite H by done. done.
Qed.
Lemma v_aw_same i p f l0 tr f' l0' : (p = AWait -> i ∈ pending f' l0' <-> i ∈ pending f l0) ->
  match p with ANone => idle i tr | AChecked | APushing => evaluating i tr | AWait => ∃ w u, suspended i w u tr ∧ (i ∈ pending f l0 <-> ECopied ∉ u) end ->
  match p with ANone => idle i tr | AChecked | APushing => evaluating i tr | AWait => ∃ w u, suspended i w u tr ∧ (i ∈ pending f' l0' <-> ECopied ∉ u) end.
Proof. intros H. destruct p; try done. intros (w & u & Q & X). exists w, u. split; [done|]. by rewrite H. Qed.

Ltac log1 := rewrite ?elem_of_cons; split; [intros [?|?]|intros ?]; try done.
Lemma in_cons_ne (e e' : rev) tr : e ≠ e' -> e ∈ e' :: tr <-> e ∈ tr.
Proof. intros N. rewrite elem_of_cons. split; [intros [?|?]; done|by right]. Qed.

Lemma frame_up s : inv s -> r_task s = true ∨ r_fin s ≠ FOver -> r_frame s = true.
Proof. intros I H. apply (v_frame _ I). rewrite (v_ref _ I). destruct (r_task s); [lia|]. destruct H as [|H]; [done|]. destruct (r_fin s); try done; lia. Qed.

Lemma touch_up s f : r_frame s = true -> touch s f = f. Proof. intros H. unfold touch. by rewrite H. Qed.

(** The trace part of [deref]. *)
Lemma inv_deref s e f tk : inv s -> r_frame s = true -> (∀ i, about i e = false) -> e ≠ EReturned -> e ≠ ECopied -> e ≠ EFreed -> e ≠ EUseAfterFree -> e ≠ ERace ->
  (tk = r_task s ∨ tk = false ∧ r_mid s = []) -> r_ref s = S ((if tk then 1 else 0) + (match f with FOver => 0 | _ => 1 end)) -> pending f (r_list s) = pending (r_fin s) (r_list s) ->
  copied f = copied (r_fin s) -> (f = FRun <-> r_fin s = FRun) -> (f = FCopying <-> r_fin s = FCopying) ->
  (EOver ∈ e :: r_tr s <-> f = FOver) -> (EDropped ∈ e :: r_tr s <-> tk = false) ->
  inv (deref (Rst f (r_list s) (r_aw s) (r_mid s) (r_push s) (r_ref s) (r_frame s) tk false (e :: r_tr s))).
Proof.
  intros I F A N1 N2 N3 N4 N5 TK R PE CO FR FC OV DR. unfold deref. simpl. rewrite R. simpl. set (n := (if tk then 1 else 0) + _).
  assert (∀ x, x ≠ EFreed -> x ∈ (if decide (n = 0) then EFreed :: e :: r_tr s else e :: r_tr s) <-> x ∈ e :: r_tr s) as TR. { intros x Hx. destruct decide; [|done]. by apply in_cons_ne. }
  constructor; simpl.
  - done.
  - destruct decide; [done|]. rewrite F. done.
  - apply I.
  - intros H. destruct TK as [->|[-> H']]; [by apply (v_task _ I)|done].
  - apply I.
  - intros H. apply (v_copying _ I). by apply FC.
  - rewrite PE. apply I.
  - intros i. rewrite PE. apply I.
  - intros i. pose proof (v_aw _ I i) as H. destruct decide; [eapply (v_aw_keep i _ f (r_list s)); [done|done|]|]; (eapply (v_aw_keep i _ (r_fin s) (r_list s)); [done| |exact H]; by rewrite PE).
  - rewrite TR, in_cons_ne by done. rewrite (v_ret _ I). by rewrite FR.
  - rewrite TR, in_cons_ne by done. rewrite (v_cop _ I), CO. done.
  - by rewrite TR.
  - by rewrite TR.
  - rewrite !TR, !in_cons_ne by done. apply I.
  - assert (freed (e :: r_tr s) = 0) as Z. { pose proof (v_freed _ I) as Z. rewrite F in Z. destruct e; try done. }
    destruct decide; [change (S (freed (e :: r_tr s)) = 1); by rewrite Z|rewrite F; exact Z].
Qed.

Lemma set_aw_eq i p f : set_aw i p f i = p. Proof. unfold set_aw. by rewrite decide_True. Qed.
Lemma set_aw_ne i j p f : j ≠ i -> set_aw i p f j = f j. Proof. intros. unfold set_aw. by rewrite decide_False. Qed.

Definition races (s s' : rst) : Prop := r_tr s' = ERace :: r_tr s ∧ ∃ i, evaluating i (r_tr s) .

Lemma step_inv a s s' : inv s -> rperform a s = Some s' -> (r_bad s' = false ∧ inv s') ∨ (r_bad s' = true ∧ races s s').
Proof.
  intros I. unfold rperform. destruct (r_bad s) eqn:B; [done|]. destruct a as [i|i|i| | | | | | ].
  - destruct (r_task s) eqn:T; [|done]. destruct (r_aw s i) eqn:W; try done. intros [= <-]. left. rewrite touch_up by (apply (frame_up s I); auto).
    destruct (is_done s) eqn:D; simpl; (split; [done|]).
    + constructor; simpl; rewrite ?in_cons_ne by done; try apply I.
      * rewrite (v_ref _ I), T. done.
      * done.
      * intros j. destruct (decide (j = i)) as [->|N].
        -- rewrite W. right. exists true, [], (r_tr s). split; [done|constructor].
        -- eapply v_aw_keep; [|done|apply (v_aw _ I)]. simpl. by rewrite bool_decide_false.
      * rewrite (v_drop _ I), T. done.
    + constructor; simpl; rewrite ?in_cons_ne by done; try apply I.
      * rewrite (v_ref _ I), T. done.
      * intros j. rewrite elem_of_cons, (v_mid _ I j). destruct (decide (j = i)) as [->|N]; [rewrite set_aw_eq; naive_solver|rewrite set_aw_ne by done; naive_solver].
      * done.
      * intros j. rewrite (v_push _ I j). destruct (decide (j = i)) as [->|N]; [rewrite set_aw_eq, W; done|by rewrite set_aw_ne].
      * intros j H. destruct (decide (j = i)) as [->|N]; [|rewrite set_aw_ne by done; by apply (v_pend _ I)]. apply (v_pend _ I) in H. congruence.
      * intros j. destruct (decide (j = i)) as [->|N].
        -- rewrite set_aw_eq. exists [], (r_tr s). split; [done|constructor].
        -- rewrite set_aw_ne by done. eapply v_aw_keep; [|done|apply (v_aw _ I)]. simpl. by rewrite bool_decide_false.
      * rewrite (v_drop _ I), T. done.
  - destruct (r_aw s i) eqn:W; try done. intros [= <-]. assert (r_task s = true) as T. { apply (v_task _ I). intros H. assert (i ∈ r_mid s) as M by (apply (v_mid _ I); auto). rewrite H in M. by apply elem_of_nil in M. }
    rewrite touch_up by (apply (frame_up s I); auto). pose proof (v_aw _ I i) as EV. rewrite W in EV.
    assert (r_push s = None -> r_fin s ≠ FCopying -> inv (Rst (r_fin s) (r_list s) (set_aw i APushing (r_aw s)) (r_mid s) (Some i) (r_ref s) (r_frame s) (r_task s) false (r_tr s))) as OK.
    { intros PN FN. constructor; simpl; try apply I.
      - intros j. rewrite (v_mid _ I j). destruct (decide (j = i)) as [->|N]; [rewrite set_aw_eq, W; naive_solver|by rewrite set_aw_ne].
      - intros j. destruct (decide (j = i)) as [->|N]; [rewrite set_aw_eq; done|rewrite set_aw_ne by done]. pose proof (v_push _ I j) as H. rewrite PN in H. split; [congruence|]. intros H'. apply H in H'. done.
      - done.
      - intros j H. destruct (decide (j = i)) as [->|N]; [|rewrite set_aw_ne by done; by apply (v_pend _ I)]. apply (v_pend _ I) in H. congruence.
      - intros j. destruct (decide (j = i)) as [->|N]; [by rewrite set_aw_eq|rewrite set_aw_ne by done; apply (v_aw _ I)]. }
    destruct (r_push s) eqn:PN; [right; split; [done|]; split; [done|by exists i]|]. destruct (r_fin s) eqn:FN; try (left; split; [done|]; by apply OK). right; split; [done|]; split; [done|by exists i].
  - destruct (r_aw s i) eqn:W; try done. intros [= <-]. assert (r_task s = true) as T. { apply (v_task _ I). intros H. assert (i ∈ r_mid s) as M by (apply (v_mid _ I); auto). rewrite H in M. by apply elem_of_nil in M. }
    left. rewrite touch_up by (apply (frame_up s I); auto). split; [done|]. pose proof (proj2 (v_push _ I i) W) as PS. assert (r_fin s ≠ FCopying) as NC. { intros H. apply (v_copying _ I) in H. congruence. }
    assert (i ∉ pending (r_fin s) (r_list s)) as NP. { intros H. apply (v_pend _ I) in H. congruence. }
    assert (∀ j, j ∈ pending (r_fin s) (r_list s ++ [i]) <-> j ∈ pending (r_fin s) (r_list s) ∨ j = i ∧ r_fin s = FRun) as PE. { intros j. destruct (r_fin s); simpl; rewrite ?elem_of_app, ?elem_of_list_singleton; naive_solver. }
    constructor; simpl; rewrite ?in_cons_ne by done; try apply I.
    + intros j. rewrite elem_of_list_filter, (v_mid _ I j). destruct (decide (j = i)) as [->|N]; [rewrite set_aw_eq; naive_solver|rewrite set_aw_ne by done; naive_solver].
    + done.
    + intros j. destruct (decide (j = i)) as [->|N]; [rewrite set_aw_eq; done|rewrite set_aw_ne by done]. pose proof (v_push _ I j) as H. rewrite PS in H. split; [done|]. intros H'. apply H in H'. congruence.
    + done.
    + pose proof (v_list _ I) as ND. destruct (r_fin s); simpl in *; try done. apply NoDup_app. split; [done|]. split; [|apply NoDup_singleton]. intros j H1 ->%elem_of_list_singleton. done.
    + intros j [H|[-> _]]%PE; [|by rewrite set_aw_eq]. destruct (decide (j = i)) as [->|N]; [done|rewrite set_aw_ne by done; by apply (v_pend _ I)].
    + intros j. destruct (decide (j = i)) as [->|N].
      * rewrite set_aw_eq. exists [], (r_tr s). split; [split; [done|constructor]|]. rewrite PE, (v_cop _ I). destruct (r_fin s); simpl; try done; naive_solver.
      * rewrite set_aw_ne by done. eapply v_aw_keep; [simpl; by rewrite bool_decide_false| |apply (v_aw _ I)]. intros _. rewrite PE. naive_solver.
  - destruct (r_fin s) eqn:F; try done. intros [= <-]. rewrite touch_up by (apply (frame_up s I); right; congruence). destruct (r_push s) as [i|] eqn:PS.
    { right. split; [done|]. split; [done|]. exists i. pose proof (v_aw _ I i) as H. by rewrite (proj1 (v_push _ I i) PS) in H. }
    left. split; [done|]. constructor; simpl; rewrite ?in_cons_ne by done; try (rewrite <- PS; apply I); try apply I.
    + rewrite (v_ref _ I), F. done.
    + done.
    + pose proof (v_list _ I) as H. by rewrite F in H.
    + intros j H. apply (v_pend _ I). by rewrite F.
    + intros j. eapply (v_aw_keep j _ (r_fin s) (r_list s) (r_tr s) FCopying (r_list s)); [done| |apply (v_aw _ I)]. by rewrite F.
    + split; [done|]. intros _. left.
    + rewrite (v_cop _ I), F. done.
    + rewrite (v_over _ I), F. done.
  - destruct (r_fin s) eqn:F; try done. intros [= <-]. rewrite touch_up by (apply (frame_up s I); right; congruence).
    left. split; [done|]. constructor; simpl; rewrite ?in_cons_ne by done; try apply I.
    + rewrite (v_ref _ I), F. done.
    + done.
    + pose proof (v_list _ I) as H. by rewrite F in H.
    + intros j H. apply (v_pend _ I). by rewrite F.
    + intros j. eapply (v_aw_keep j _ (r_fin s) (r_list s) (r_tr s) (FCopied (r_list s)) (r_list s)); [done| |apply (v_aw _ I)]. by rewrite F.
    + rewrite (v_ret _ I), F. done.
    + split; [done|]. intros _. left.
    + rewrite (v_over _ I), F. done.
  - destruct (r_fin s) as [| |l| |] eqn:F; try done. intros [= <-]. rewrite touch_up by (apply (frame_up s I); right; congruence).
    left. split; [done|]. constructor; simpl; try apply I.
    + rewrite (v_ref _ I), F. done.
    + done.
    + pose proof (v_list _ I) as H. by rewrite F in H.
    + intros j H. apply (v_pend _ I). by rewrite F.
    + intros j. eapply (v_aw_same j _ (r_fin s) (r_list s) (r_tr s) (FLoop l) (r_list s)); [|apply (v_aw _ I)]. by rewrite F.
    + rewrite (v_ret _ I), F. done.
    + rewrite (v_cop _ I), F. done.
    + rewrite (v_over _ I), F. done.
  - destruct (r_fin s) as [| | |[|i l]|] eqn:F; try done. intros [= <-]. rewrite touch_up by (apply (frame_up s I); right; congruence).
    assert (r_aw s i = AWait) as W. { apply (v_pend _ I). rewrite F. left. }
    pose proof (v_list _ I) as ND. rewrite F in ND. simpl in ND. apply NoDup_cons in ND as [ND1 ND2].
    left. split; [done|]. constructor; simpl; rewrite ?in_cons_ne by done; try apply I.
    + rewrite (v_ref _ I), F. done.
    + intros j. rewrite (v_mid _ I j). destruct (decide (j = i)) as [->|N]; [rewrite set_aw_eq, W; naive_solver|by rewrite set_aw_ne].
    + intros j. rewrite (v_push _ I j). destruct (decide (j = i)) as [->|N]; [rewrite set_aw_eq, W; done|by rewrite set_aw_ne].
    + done.
    + done.
    + intros j H. rewrite set_aw_ne; [|by intros ->]. apply (v_pend _ I). rewrite F. by right.
    + intros j. destruct (decide (j = i)) as [->|N].
      * rewrite set_aw_eq. right. exists false, [], (r_tr s). split; [done|constructor].
      * rewrite set_aw_ne by done. eapply (v_aw_keep j _ (r_fin s) (r_list s) (r_tr s) (FLoop l) (r_list s)); [simpl; by rewrite bool_decide_false| |apply (v_aw _ I)]. intros _. rewrite F. simpl. rewrite elem_of_cons. naive_solver.
    + rewrite (v_ret _ I), F. done.
    + rewrite (v_cop _ I), F. done.
    + rewrite (v_over _ I), F. done.
  - destruct (r_fin s) as [| | |[|i l]|] eqn:F; try done. intros [= <-]. assert (r_frame s = true) as UP by (apply (frame_up s I); right; congruence). rewrite touch_up by done.
    left. split; [done|]. apply (inv_deref s EOver FOver (r_task s)); try done; rewrite ?F; try done.
    + by left.
    + rewrite (v_ref _ I), F. lia.
    + split; [done|]. intros _. left.
    + rewrite in_cons_ne by done. apply I.
  - destruct (r_task s) eqn:T; [|done]. destruct (r_mid s) eqn:M; [|done]. intros [= <-]. assert (r_frame s = true) as UP by (apply (frame_up s I); by left). rewrite touch_up by done.
    left. split; [done|]. rewrite <- M. apply (inv_deref s EDropped (r_fin s) false); try done.
    + by right.
    + rewrite (v_ref _ I), T. done.
    + rewrite in_cons_ne by done. apply I.
    + split; [done|]. intros _. left.
Qed.

Lemma inv_0 : inv race0.
Proof.
  constructor; simpl; try done.
  - intros i. rewrite elem_of_nil. split; [done|]. by intros [|].
  - constructor.
  - by intros i ?%elem_of_nil.
  - intros i. left. constructor.
  - split; [by intros ?%elem_of_nil|done].
  - split; [by intros ?%elem_of_nil|done].
  - split; [by intros ?%elem_of_nil|done].
  - split; [by intros ?%elem_of_nil|done].
  - split; by intros ?%elem_of_nil.
Qed.

Lemma reach_inv s : rreach s -> (r_bad s = false ∧ inv s) ∨ (r_bad s = true ∧ ∃ s0, rreach s0 ∧ inv s0 ∧ races s0 s).
Proof.
  induction 1 as [|s s' a R [[B I]|[B IH]] P].
  - left. split; [done|apply inv_0].
  - destruct (step_inv a s s' I P) as [|[B' RA]]; [by left|]. right. split; [done|]. by exists s.
  - unfold rperform in P. by rewrite B in P.
Qed.

Lemma reach_ok s : rreach s -> ERace ∉ r_tr s -> r_bad s = false ∧ inv s.
Proof. intros R N. destruct (reach_inv s R) as [?|(B & s0 & R0 & I & E & _)]; [done|]. destruct N. rewrite E. left. Qed.

Lemma goes_reach s s' : rreach s -> rgoes s s' -> rreach s'.
Proof. intros R G. revert R. induction G as [|s s1 s2 a G IH P]; [done|]. intros R. eapply rreach_S; [by apply IH|exact P]. Qed.

Lemma rgoes_1 a s s' : rperform a s = Some s' -> rgoes s s'.
Proof. intros P. eapply rgoes_S; [apply rgoes_0|exact P]. Qed.
Lemma rgoes_tr s s' s'' : rgoes s s' -> rgoes s' s'' -> rgoes s s''.
Proof. intros G H. revert G. induction H as [|s1 s2 s3 a H IH P]; [done|]. intros G. eapply rgoes_S; [by apply IH|exact P]. Qed.

Lemma rgoes_L a s s' s'' : rperform a s = Some s' -> rgoes s' s'' -> rgoes s s''.
Proof. intros P. apply rgoes_tr. by eapply rgoes_1. Qed.

(** What one step logs about the coroutines. *)
Lemma step_log a s s' : inv s -> rperform a s = Some s' ->
  ∃ w, r_tr s' = w ++ r_tr s ∧
    ((∀ i b, EGot i b ∉ w) ∨ (∃ i, w = [EGot i true] ∧ is_done s = true ∧ r_aw s i = ANone) ∨ (∃ i l, w = [EGot i false] ∧ r_fin s = FLoop (i :: l))).
Proof.
  intros I. unfold rperform. destruct (r_bad s) eqn:B; [done|].
  assert (∀ e, (∀ i b, e ≠ EGot i b) -> ∀ i b, EGot i b ∉ [e]) as N1. { intros e H i b ?%elem_of_list_singleton. by apply (H i b). }
  assert (∀ e, (∀ i b, e ≠ EGot i b) -> ∀ i b, EGot i b ∉ [EFreed; e]) as N2. { intros e H i b [?|[?|?%elem_of_nil]%elem_of_cons]%elem_of_cons; [done| |done]. by apply (H i b). }
  assert (∀ i b, EGot i b ∉ []) as N0. { intros i b ?%elem_of_nil. done. }
  destruct a as [i|i|i| | | | | | ].
  - destruct (r_task s); [|done]. destruct (r_aw s i) eqn:W; try done. intros [= <-]. unfold touch, bad. destruct (r_frame s); [|eexists [_]; split; [done|left; by apply N1]].
    destruct (is_done s) eqn:D; eexists [_]; (split; [done|]); [right; left; by exists i|left; by apply N1].
  - destruct (r_aw s i); try done. intros [= <-]. unfold touch, bad. destruct (r_frame s); [|eexists [_]; split; [done|left; by apply N1]].
    destruct (r_push s); [eexists [_]; split; [done|left; by apply N1]|]. destruct (r_fin s); first [by exists []; split; [done|left]|eexists [_]; split; [done|left; by apply N1]].
  - destruct (r_aw s i); try done. intros [= <-]. unfold touch, bad. destruct (r_frame s); (eexists [_]; split; [done|left; by apply N1]).
  - destruct (r_fin s); try done. intros [= <-]. unfold touch, bad. destruct (r_frame s); [|eexists [_]; split; [done|left; by apply N1]]. destruct (r_push s); (eexists [_]; split; [done|left; by apply N1]).
  - destruct (r_fin s); try done. intros [= <-]. unfold touch, bad. destruct (r_frame s); (eexists [_]; split; [done|left; by apply N1]).
  - destruct (r_fin s); try done. intros [= <-]. unfold touch, bad. destruct (r_frame s); [by exists []; split; [done|left]|eexists [_]; split; [done|left; by apply N1]].
  - destruct (r_fin s) as [| | |[|i l]|] eqn:F; try done. intros [= <-]. unfold touch, bad. destruct (r_frame s); [|eexists [_]; split; [done|left; by apply N1]]. eexists [_]. split; [done|]. right; right. by exists i, l.
  - destruct (r_fin s) as [| | |[|i l]|] eqn:F; try done. intros [= <-]. unfold touch, bad, deref. destruct (r_frame s); [|eexists [_]; split; [done|left; by apply N1]]. simpl.
    destruct decide; [eexists [_; _]; split; [done|left; by apply N2]|eexists [_]; split; [done|left; by apply N1]].
  - destruct (r_task s); [|done]. destruct (r_mid s); [|done]. intros [= <-]. unfold touch, bad, deref. destruct (r_frame s); [|eexists [_]; split; [done|left; by apply N1]]. simpl.
    destruct decide; [eexists [_; _]; split; [done|left; by apply N2]|eexists [_]; split; [done|left; by apply N1]].
Qed.

Lemma goes_log s s' : rreach s -> rgoes s s' -> ∃ w, r_tr s' = w ++ r_tr s.
Proof.
  intros R G. revert R. induction G as [|s s1 s2 a G IH P]; intros R; [by exists []|]. destruct (IH R) as [w E]. destruct (reach_inv s1 (goes_reach _ _ R G)) as [[_ I]|[B _]].
  - destruct (step_log a s1 s2 I P) as (w' & E' & _). exists (w' ++ w). by rewrite E', E, app_assoc.
  - unfold rperform in P. by rewrite B in P.
Qed.

(** The last event about a coroutine is determined by the trace. *)
Lemma cut i (w w' u u' : list rev) e e' : w ++ e :: u = w' ++ e' :: u' -> quiet i w -> quiet i w' -> about i e = true -> about i e' = true -> w = w' ∧ e = e' ∧ u = u'.
Proof.
  revert w'. induction w as [|x w IH]; intros [|y w']; simpl; intros [= H1 H2] Q Q' A A'.
  - done.
  - subst. inversion Q'; congruence.
  - subst. inversion Q; congruence.
  - subst. apply IH in H2 as (-> & -> & ->); try done; by inversion Q; inversion Q'.
Qed.
Lemma about_1 i : about i (EAwait i) = true. Proof. simpl. by rewrite bool_decide_true. Qed.
Lemma about_2 i : about i (ESuspended i) = true. Proof. simpl. by rewrite bool_decide_true. Qed.
Lemma about_3 i b : about i (EGot i b) = true. Proof. simpl. by rewrite bool_decide_true. Qed.
Lemma quiet_no i (w u : list rev) e : quiet i (w ++ e :: u) -> about i e = true -> False.
Proof. intros Q A. apply Forall_app in Q as [_ Q]. inversion Q; congruence. Qed.

Lemma susp_wait s i w u : inv s -> suspended i w u (r_tr s) -> r_aw s i = AWait ∧ (i ∈ pending (r_fin s) (r_list s) <-> ECopied ∉ u).
Proof.
  intros I [E Q]. pose proof (v_aw _ I i) as H. destruct (r_aw s i).
  - destruct H as [H|(b & w' & u' & E' & Q')].
    + rewrite E in H. exfalso. by eapply quiet_no; [exact H|apply about_2].
    + rewrite E in E'. apply (cut i) in E' as (_ & ? & _); try done; [apply about_2|apply about_3].
  - destruct H as (w' & u' & E' & Q'). rewrite E in E'. apply (cut i) in E' as (_ & ? & _); try done; [apply about_2|apply about_1].
  - destruct H as (w' & u' & E' & Q'). rewrite E in E'. apply (cut i) in E' as (_ & ? & _); try done; [apply about_2|apply about_1].
  - split; [done|]. destruct H as (w' & u' & (E' & Q') & H). rewrite E in E'. apply (cut i) in E' as (-> & _ & ->); try done; apply about_2.
Qed.
Lemma idle_none s i : inv s -> idle i (r_tr s) -> r_aw s i = ANone.
Proof.
  intros I D. pose proof (v_aw _ I i) as H. destruct (r_aw s i); [done|exfalso..].
  - destruct H as (w & u & E & Q). destruct D as [D|(b & w' & u' & E' & Q')]; [rewrite E in D; by eapply quiet_no; [exact D|apply about_1]|].
    rewrite E in E'. apply (cut i) in E' as (_ & ? & _); try done; [apply about_1|apply about_3].
  - destruct H as (w & u & E & Q). destruct D as [D|(b & w' & u' & E' & Q')]; [rewrite E in D; by eapply quiet_no; [exact D|apply about_1]|].
    rewrite E in E'. apply (cut i) in E' as (_ & ? & _); try done; [apply about_1|apply about_3].
  - destruct H as (w & u & (E & Q) & _). destruct D as [D|(b & w' & u' & E' & Q')]; [rewrite E in D; by eapply quiet_no; [exact D|apply about_2]|].
    rewrite E in E'. apply (cut i) in E' as (_ & ? & _); try done; [apply about_2|apply about_3].
Qed.

(** ** C127: what becomes of a co_await, exactly *)

(** A co_await that returns does so after the coroutine has ended; on its own thread, if it found the coroutine ended; on the coroutine's
    last thread, if it had suspended before the end of final_suspend(). *)
Theorem C127_returned s i b v t : rreach s -> r_tr s = v ++ EGot i b :: t ->
  EReturned ∈ t ∧ ECopied ∈ t ∧ (if b then idle i t else ∃ w u, suspended i w u t ∧ ECopied ∉ u).
Proof.
  intros R. revert v. induction R as [|s s' a R IH P]; intros v E.
  { simpl in E. symmetry in E. by apply app_eq_nil in E as [_ ?]. }
  destruct (reach_inv s R) as [[B I]|[B _]]; [|unfold rperform in P; by rewrite B in P].
  destruct (step_log a s s' I P) as (w & E' & C). rewrite E in E'.
  assert (∀ l, w = l -> (∃ v', v ++ EGot i b :: t = l ++ v' ++ EGot i b :: t ∧ r_tr s = v' ++ EGot i b :: t) ∨ EGot i b ∈ l ∧ ∃ l', l' ++ r_tr s = t ∧ length l' < length l) as D.
  { intros l ->. clear -E'. revert v E'. induction l as [|x l IH]; intros v E'; simpl in *; [left; exists v; done|].
    destruct v as [|y v]; simpl in *; injection E' as E1 E2.
    - right. split; [rewrite E1; left|]. exists l. split; [done|lia].
    - subst y. destruct (IH v E2) as [(v' & A1 & A2)|(A1 & l' & A2 & A3)]; [left; exists v'; split; [by rewrite <- A1|done]|right; split; [by right|exists l'; split; [done|lia]]]. }
  destruct (D w eq_refl) as [(v' & _ & A)|(A & l' & A2 & A3)]; [by eapply IH|].
  destruct C as [C|[(j & -> & D1 & D2)|(j & l & -> & F)]]; [by destruct (C i b)| |].
  - simpl in A3. destruct l'; simpl in *; [|lia]. apply elem_of_list_singleton in A. injection A as -> ->. subst t.
    pose proof (v_aw _ I j) as H. rewrite D2 in H. unfold is_done in D1. rewrite (v_ret _ I), (v_cop _ I). destruct (r_fin s); done.
  - simpl in A3. destruct l'; simpl in *; [|lia]. apply elem_of_list_singleton in A. injection A as -> ->. subst t.
    rewrite (v_ret _ I), (v_cop _ I). rewrite F. split_and!; try done.
    assert (j ∈ pending (r_fin s) (r_list s)) as PE by (rewrite F; left). pose proof (v_aw _ I j) as H. rewrite (v_pend _ I j PE) in H. destruct H as (w & u & S1 & S2). exists w, u. split; [done|]. by apply S2.
Qed.
Print Assumptions C127_returned.

(** A suspended coroutine, after one step. *)
Lemma step_wait a s s' i w u : inv s -> suspended i w u (r_tr s) -> rperform a s = Some s' ->
  (∃ w', suspended i w' u (r_tr s')) ∨ (∃ l, r_fin s = FLoop (i :: l)).
Proof.
  intros I S P. destruct (susp_wait s i w u I S) as [W _]. destruct S as [E Q].
  assert (∀ w0, quiet i w0 -> ∃ w', suspended i w' u (w0 ++ r_tr s)) as K. { intros w0 Q0. exists (w0 ++ w). split; [by rewrite E, app_assoc|]. apply Forall_app. by split. }
  assert (∃ w', suspended i w' u (r_tr s)) as K0 by (apply (K []); constructor).
  assert (∀ e, about i e = false -> ∃ w', suspended i w' u (e :: r_tr s)) as K1. { intros e A. apply (K [e]). by constructor. }
  assert (∀ e, about i e = false -> ∃ w', suspended i w' u (EFreed :: e :: r_tr s)) as K2. { intros e A. apply (K [EFreed; e]). constructor; [done|]. by constructor. }
  assert (∀ j, r_aw s j ≠ AWait -> about i (EAwait j) = false ∧ about i (ESuspended j) = false ∧ about i (EGot j true) = false) as NE. { intros j N. assert (j ≠ i) as ? by (intros ->; done). simpl. by rewrite !bool_decide_false. }
  revert P. unfold rperform. destruct (r_bad s) eqn:B; [done|].
  destruct a as [j|j|j| | | | | | ].
  - destruct (r_task s); [|done]. destruct (r_aw s j) eqn:J; try done. intros [= <-]. left. destruct (NE j) as (A1 & A2 & A3); [congruence|]. unfold touch, bad. destruct (r_frame s); [|by apply K1]. destruct (is_done s); by apply K1.
  - destruct (r_aw s j) eqn:J; try done. intros [= <-]. left. unfold touch, bad. destruct (r_frame s); [|by apply K1]. destruct (r_push s); [by apply K1|]. destruct (r_fin s); first [exact K0|by apply K1].
  - destruct (r_aw s j) eqn:J; try done. intros [= <-]. left. destruct (NE j) as (A1 & A2 & A3); [congruence|]. unfold touch, bad. destruct (r_frame s); by apply K1.
  - destruct (r_fin s); try done. intros [= <-]. left. unfold touch, bad. destruct (r_frame s); [|by apply K1]. destruct (r_push s); by apply K1.
  - destruct (r_fin s); try done. intros [= <-]. left. unfold touch, bad. destruct (r_frame s); by apply K1.
  - destruct (r_fin s); try done. intros [= <-]. left. unfold touch, bad. destruct (r_frame s); [exact K0|by apply K1].
  - destruct (r_fin s) as [| | |[|j l]|] eqn:F; try done. intros [= <-]. destruct (decide (j = i)) as [->|N]; [right; by exists l|]. left. unfold touch, bad. destruct (r_frame s); apply K1; simpl; [by rewrite bool_decide_false|done].
  - destruct (r_fin s) as [| | |[|j l]|] eqn:F; try done. intros [= <-]. left. unfold touch, bad, deref. destruct (r_frame s); [|by apply K1]. simpl. destruct decide; [by apply K2|by apply K1].
  - destruct (r_task s); [|done]. destruct (r_mid s); [|done]. intros [= <-]. left. unfold touch, bad, deref. destruct (r_frame s); [|by apply K1]. simpl. destruct decide; [by apply K2|by apply K1].
Qed.

(** A co_await that suspends after the end of final_suspend() never returns. *)
Theorem C127_never s s' i w u : rreach s -> suspended i w u (r_tr s) -> ECopied ∈ u -> rgoes s s' -> ∃ w', suspended i w' u (r_tr s').
Proof.
  intros R S C G. revert R S. induction G as [|s s1 s2 a G IH P]; intros R S; [by exists w|]. destruct (IH R S) as [w1 S1].
  destruct (reach_inv s1 (goes_reach _ _ R G)) as [[B I]|[B _]]; [|unfold rperform in P; by rewrite B in P].
  destruct (step_wait a s1 s2 i w1 u I S1 P) as [?|[l F]]; [done|]. destruct (susp_wait s1 i w1 u I S1) as [_ H]. exfalso. rewrite F in H. apply H; [left|done].
Qed.
Print Assumptions C127_never.

(** Steps of the coroutine's last thread. *)
Definition ending (a : ract) : Prop := a = RCopied ∨ a = RDone ∨ a = RResume ∨ a = RDeref.

Lemma rplay_S a l s s' : rperform a s = Some s' -> rplay (a :: l) s = rplay l s'.
Proof. intros H. simpl. by rewrite H. Qed.

Lemma play_loop i l1 l2 s : r_bad s = false -> r_frame s = true -> r_fin s = FLoop (l1 ++ i :: l2) -> ∃ w, r_tr (rplay (repeat RResume (S (length l1))) s) = EGot i false :: w ++ r_tr s.
Proof.
  revert s. induction l1 as [|j l1 IH]; intros s B U F.
  - exists []. change (repeat RResume (S (length []))) with [RResume]. erewrite rplay_S. 2: { unfold rperform. rewrite B, F. simpl. rewrite touch_up by done. reflexivity. } done.
  - change (repeat RResume (S (length (j :: l1)))) with (RResume :: repeat RResume (S (length l1))).
    rewrite (rplay_S _ _ _ (Rst (FLoop (l1 ++ i :: l2)) (r_list s) (set_aw j ANone (r_aw s)) (r_mid s) (r_push s) (r_ref s) (r_frame s) (r_task s) false (EGot j false :: r_tr s))).
    2: { unfold rperform. rewrite B, F. simpl. by rewrite touch_up. }
    edestruct (IH (Rst (FLoop (l1 ++ i :: l2)) (r_list s) (set_aw j ANone (r_aw s)) (r_mid s) (r_push s) (r_ref s) (r_frame s) (r_task s) false (EGot j false :: r_tr s))) as [w E]; try done.
    exists (w ++ [EGot j false]). rewrite E. simpl. by rewrite <- app_assoc.
Qed.

(** A co_await that suspends before the end of final_suspend() returns: the coroutine's last thread, on its own, gets to it. *)
Theorem C127_woken s i w u : rreach s -> suspended i w u (r_tr s) -> ECopied ∉ u ->
  EOver ∉ r_tr s ∧
  (ERace ∉ r_tr s -> EReturned ∈ r_tr s -> ∃ l w', Forall ending l ∧ r_tr (rplay l s) = EGot i false :: w' ++ r_tr s).
Proof.
  intros R SU C. assert (∀ s, inv s -> suspended i w u (r_tr s) -> EOver ∉ r_tr s) as NO.
  { intros s1 I S1 O. apply (v_over _ I) in O. destruct (susp_wait s1 i w u I S1) as [_ H]. rewrite O in H. simpl in H. apply H in C. by apply elem_of_nil in C. }
  split.
  - destruct (reach_inv s R) as [[_ I]|(_ & s0 & R0 & I & E & _)]; [by eapply NO|]. destruct SU as [S1 S2]. destruct w as [|e w]; [by rewrite E in S1|]. rewrite E in S1. injection S1 as <- S1.
    rewrite E. rewrite in_cons_ne by done. assert (suspended i w u (r_tr s0)) as S0. { split; [done|]. by inversion S2. } intros O. apply (v_over _ I) in O. destruct (susp_wait s0 i w u I S0) as [_ H]. rewrite O in H. apply H in C. by apply elem_of_nil in C.
  - intros NR ER. destruct (reach_ok s R NR) as [B I]. destruct (susp_wait s i w u I SU) as [W H]. apply H in C. apply (v_ret _ I) in ER.
    assert (r_fin s ≠ FOver) as NF. { intros F. rewrite F in C. by apply elem_of_nil in C. }
    assert (r_frame s = true) as U by (apply (frame_up s I); by right).
    assert (∀ k, Forall ending (repeat RResume k)) as FR. { intros k. apply Forall_forall. intros a Ha. apply elem_of_list_In, repeat_spec in Ha as ->. right; right; by left. }
    destruct (r_fin s) as [| |l|l|] eqn:F; try done; simpl in C; apply elem_of_list_split in C as (l1 & l2 & E).
    + edestruct (play_loop i l1 l2 (Rst (FLoop (r_list s)) (r_list s) (r_aw s) (r_mid s) (r_push s) (r_ref s) (r_frame s) (r_task s) false (ECopied :: r_tr s))) as [w' P]; try done; [by simpl; rewrite E|].
      exists (RCopied :: RDone :: repeat RResume (S (length l1))), (w' ++ [ECopied]). split; [constructor; [by left|]; constructor; [right; by left|apply FR]|].
      erewrite rplay_S. 2: { unfold rperform. rewrite B, F. rewrite touch_up by done. reflexivity. }
      erewrite rplay_S. 2: { unfold rperform. simpl. rewrite touch_up by done. reflexivity. }
      rewrite P. simpl. by rewrite <- app_assoc.
    + edestruct (play_loop i l1 l2 (Rst (FLoop l) (r_list s) (r_aw s) (r_mid s) (r_push s) (r_ref s) (r_frame s) (r_task s) false (r_tr s))) as [w' P]; try done; [by simpl; rewrite E|].
      exists (RDone :: repeat RResume (S (length l1))), w'. split; [constructor; [right; by left|apply FR]|].
      erewrite rplay_S. 2: { unfold rperform. rewrite B, F. rewrite touch_up by done. reflexivity. }
      by rewrite P.
    + edestruct (play_loop i l1 l2 s) as [w' P]; try done; [by rewrite F, E|]. exists (repeat RResume (S (length l1))), w'. split; [apply FR|done].
Qed.
Print Assumptions C127_woken.

(** ** C126: co_await of a Task whose coroutine ends on another thread always returns - violated *)

(** In any state in which the coroutine is running and its Task exists, nothing else happening: if the coroutine ends between await_ready() and
    await_suspend(), the co_await never returns, *)
Theorem C126_refuted_lost s i : rreach s -> ERace ∉ r_tr s -> EReturned ∉ r_tr s -> EDropped ∉ r_tr s -> idle i (r_tr s) -> (∀ j, ¬ evaluating j (r_tr s)) ->
  ∃ s1, rgoes s s1 ∧ r_tr s1 = [ESuspended i; ECopied; EReturned; EAwait i] ++ r_tr s ∧
    ∀ s2, rgoes s1 s2 -> ∃ w, r_tr s2 = w ++ r_tr s1 ∧ ∀ b, EGot i b ∉ w.
Proof.
  intros R NR NE ND D NJ. destruct (reach_ok s R NR) as [B I]. pose proof (idle_none s i I D) as W.
  assert (r_fin s = FRun) as F. { destruct (r_fin s) eqn:F; [done|..]; destruct NE; apply (v_ret _ I); congruence. }
  assert (r_task s = true) as T. { destruct (r_task s) eqn:T; [done|]. destruct ND. by apply (v_drop _ I). }
  assert (r_push s = None) as PN. { destruct (r_push s) as [j|] eqn:PN; [|done]. destruct (NJ j). apply (v_push _ I) in PN. pose proof (v_aw _ I j) as H. by rewrite PN in H. }
  assert (r_frame s = true) as U by (apply (frame_up s I); by left).
  set (s1 := Rst (FCopied (r_list s)) (r_list s ++ [i]) (set_aw i AWait (set_aw i APushing (set_aw i AChecked (r_aw s)))) (filter (λ j, j ≠ i) (i :: r_mid s)) None (r_ref s) (r_frame s) (r_task s) false ([ESuspended i; ECopied; EReturned; EAwait i] ++ r_tr s)).
  assert (rgoes s s1) as G.
  { apply (rgoes_L (RAwait i) _ (Rst FRun (r_list s) (set_aw i AChecked (r_aw s)) (i :: r_mid s) None (r_ref s) (r_frame s) true false (EAwait i :: r_tr s))).
    { unfold rperform. rewrite B, T, W, touch_up by done. unfold is_done. by rewrite F, PN. }
    eapply (rgoes_L RReturn). { unfold rperform. simpl. rewrite touch_up by done. reflexivity. }
    eapply (rgoes_L RCopied). { unfold rperform. simpl. rewrite touch_up by done. reflexivity. }
    eapply (rgoes_L (RPush i)). { unfold rperform. simpl. rewrite set_aw_eq. rewrite touch_up by done. reflexivity. }
    eapply (rgoes_L (RPushed i)). { unfold rperform. simpl. rewrite set_aw_eq. rewrite touch_up by done. reflexivity. }
    unfold s1. rewrite T. apply rgoes_0. }
  exists s1. split; [done|]. split; [done|]. intros s2 G2.
  assert (rreach s1) as R1 by (eapply goes_reach; eauto).
  assert (suspended i [] ([ECopied; EReturned; EAwait i] ++ r_tr s) (r_tr s1)) as S1 by (split; [done|constructor]).
  assert (ECopied ∈ [ECopied; EReturned; EAwait i] ++ r_tr s) as C by left.
  destruct (C127_never s1 s2 i _ _ R1 S1 C G2) as (w' & E & Q). exists w'. split; [exact E|]. intros b X. unfold quiet in Q. rewrite Forall_forall in Q. apply Q in X. by rewrite about_3 in X.
Qed.
Print Assumptions C126_refuted_lost.

(** and if it ends during await_suspend(), both threads access the same vector at the same time. *)
Theorem C126_refuted_race s i : rreach s -> ERace ∉ r_tr s -> EReturned ∉ r_tr s -> EDropped ∉ r_tr s -> idle i (r_tr s) -> (∀ j, ¬ evaluating j (r_tr s)) ->
  ∃ s1, rgoes s s1 ∧ r_tr s1 = [ERace; EAwait i] ++ r_tr s.
Proof.
  intros R NR NE ND D NJ. destruct (reach_ok s R NR) as [B I]. pose proof (idle_none s i I D) as W.
  assert (r_fin s = FRun) as F. { destruct (r_fin s) eqn:F; [done|..]; destruct NE; apply (v_ret _ I); congruence. }
  assert (r_task s = true) as T. { destruct (r_task s) eqn:T; [done|]. destruct ND. by apply (v_drop _ I). }
  assert (r_push s = None) as PN. { destruct (r_push s) as [j|] eqn:PN; [|done]. destruct (NJ j). apply (v_push _ I) in PN. pose proof (v_aw _ I j) as H. by rewrite PN in H. }
  assert (r_frame s = true) as U by (apply (frame_up s I); by left).
  eexists. split.
  { apply (rgoes_L (RAwait i) _ (Rst FRun (r_list s) (set_aw i AChecked (r_aw s)) (i :: r_mid s) None (r_ref s) (r_frame s) true false (EAwait i :: r_tr s))).
    { unfold rperform. rewrite B, T, W, touch_up by done. unfold is_done. by rewrite F, PN. }
    eapply (rgoes_L (RPush i)). { unfold rperform. simpl. rewrite set_aw_eq. rewrite touch_up by done. reflexivity. }
    eapply (rgoes_L RReturn). { unfold rperform. simpl. rewrite touch_up by done. reflexivity. }
    apply rgoes_0. }
  done.
Qed.
Print Assumptions C126_refuted_race.

(** ** C128: the frame is destroyed once, when both the Task is gone and the coroutine is over, on whatever threads these happen *)
Theorem C128_frame s : rreach s ->
  EUseAfterFree ∉ r_tr s ∧ freed (r_tr s) ≤ 1 ∧ (EFreed ∈ r_tr s <-> EDropped ∈ r_tr s ∧ EOver ∈ r_tr s).
Proof.
  intros R. assert (∀ tr, EFreed ∈ tr <-> freed tr ≠ 0) as FR. { induction tr as [|e tr IH]; [split; [by intros ?%elem_of_nil|done]|]. rewrite elem_of_cons, IH. destruct e; simpl; split; try tauto; try lia; intros [?|?]; done. }
  assert (∀ s, inv s -> EUseAfterFree ∉ r_tr s ∧ freed (r_tr s) ≤ 1 ∧ (EFreed ∈ r_tr s <-> EDropped ∈ r_tr s ∧ EOver ∈ r_tr s)) as K.
  { intros s1 I. split; [apply I|]. rewrite FR, (v_freed _ I), (v_drop _ I), (v_over _ I). pose proof (v_frame _ I) as VF. rewrite (v_ref _ I) in VF.
    destruct (r_frame s1), (r_task s1), (r_fin s1); simpl in *; split; try lia; split; try done; try (intros [? ?]; done); intros _; exfalso; first [by apply VF|destruct VF as [_ VF]; discriminate VF; lia]. }
  destruct (reach_inv s R) as [[_ I]|(_ & s0 & R0 & I & E & _)]; [by apply K|]. rewrite E. destruct (K s0 I) as (K1 & K2 & K3). rewrite !in_cons_ne by done. done.
Qed.
Print Assumptions C128_frame.

(** Two threads touch the vector at once only while some coroutine evaluates a co_await of the Task. *)
Theorem C128_race s v t : rreach s -> r_tr s = v ++ ERace :: t -> v = [] ∧ ∃ i, evaluating i t.
Proof.
  intros R E. destruct (reach_inv s R) as [[_ I]|(_ & s0 & R0 & I & E0 & i & X)].
  - destruct (v_clean _ I) as [_ []]. rewrite E. apply elem_of_app. right. left.
  - rewrite E0 in E. destruct v as [|e v]; simpl in E; [injection E as <-; split; [done|by exists i]|]. injection E as E1 E2. destruct (v_clean _ I) as [_ []]. rewrite E2. apply elem_of_app. right. left.
Qed.
Print Assumptions C128_race.

(** ** Examples *)
Lemma rplay_reach l s : rreach s -> rreach (rplay l s).
Proof. revert s. induction l as [|a l IH]; intros s R; simpl; [done|]. destruct (rperform a s) eqn:P; [|done]. apply IH. eapply rreach_S; eauto. Qed.

(** Two coroutines await; the first suspends before the end, the second checks before the end and suspends after it; a third comes afterwards; the Task is destroyed by the first. *)
Definition ex_run : list ract := [RAwait 1; RPush 1; RPushed 1; RAwait 2; RReturn; RCopied; RPush 2; RPushed 2; RDone; RAwait 3; RResume; RDrop; RDeref].
Example ex_tr : r_tr (rplay ex_run race0) = [EFreed; EOver; EDropped; EGot 1 false; EGot 3 true; ESuspended 2; ECopied; EReturned; EAwait 2; ESuspended 1; EAwait 1].
Proof. vm_compute. reflexivity. Qed.
(** The hypotheses of C127_returned (for 1 and for 3), of C127_never and C128_frame hold in it; *)
Example ex_returned : rreach (rplay ex_run race0) ∧ (∃ v t, r_tr (rplay ex_run race0) = v ++ EGot 1 false :: t) ∧ (∃ v t, r_tr (rplay ex_run race0) = v ++ EGot 3 true :: t).
Proof. split; [apply rplay_reach, rreach_0|]. rewrite ex_tr. split; [by exists [EFreed; EOver; EDropped]; eexists|by exists [EFreed; EOver; EDropped; EGot 1 false]; eexists]. Qed.
Example ex_never : ∃ w u, suspended 2 w u (r_tr (rplay ex_run race0)) ∧ ECopied ∈ u.
Proof. rewrite ex_tr. exists [EFreed; EOver; EDropped; EGot 1 false; EGot 3 true]. eexists. split; [split; [reflexivity|]|left]. repeat constructor. Qed.
(** those of C127_woken after its first five steps, *)
Example ex_woken : ∃ w u, suspended 1 w u (r_tr (rplay (take 5 ex_run) race0)) ∧ ECopied ∉ u ∧ ERace ∉ r_tr (rplay (take 5 ex_run) race0) ∧ EReturned ∈ r_tr (rplay (take 5 ex_run) race0).
Proof.
  exists [EReturned; EAwait 2], [EAwait 1]. split_and!.
  - split; [vm_compute; reflexivity|]. repeat constructor.
  - by intros ?%elem_of_list_singleton.
  - vm_compute. intros H. repeat (apply elem_of_cons in H as [H|H]; [done|]). by apply elem_of_nil in H.
  - vm_compute. left.
Qed.
(** and those of C126 after its first three. *)
Example ex_lost : let s := rplay (take 3 ex_run) race0 in rreach s ∧ ERace ∉ r_tr s ∧ EReturned ∉ r_tr s ∧ EDropped ∉ r_tr s ∧ idle 2 (r_tr s) ∧ ∀ j, ¬ evaluating j (r_tr s).
Proof.
  assert (r_tr (rplay (take 3 ex_run) race0) = [ESuspended 1; EAwait 1]) as E by (vm_compute; reflexivity). intros s. unfold s. rewrite E. split_and!.
  - apply rplay_reach, rreach_0.
  - intros H. repeat (apply elem_of_cons in H as [H|H]; [done|]). by apply elem_of_nil in H.
  - intros H. repeat (apply elem_of_cons in H as [H|H]; [done|]). by apply elem_of_nil in H.
  - intros H. repeat (apply elem_of_cons in H as [H|H]; [done|]). by apply elem_of_nil in H.
  - left. repeat constructor.
  - intros j (w & u & H & Q). destruct w as [|e [|e' w]]; simpl in H; [done| |injection H as _ _ H; by destruct w].
    injection H as <- <- _. inversion Q; done.
Qed.
Example ex_race : r_tr (rplay [RAwait 1; RPush 1; RReturn] race0) = [ERace; EAwait 1].
Proof. vm_compute. reflexivity. Qed.
