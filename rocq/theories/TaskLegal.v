(** * Consequences of [legal_trace]: pure facts about traces. *)
From stdpp Require Import gmap list.
From Verif Require Import TaskModel TaskSpec.

Section legal.
Context {V : Type} (mv : V -> V).
Notation event := (event V).
Notation legal_trace := (legal_trace mv). Notation result_of := (result_of mv).

Ltac dec := repeat match goal with
  | |- context [decide (?a = ?b)] => destruct (decide (a = b)); [subst|]
  | H : context [decide (?a = ?b)] |- _ => destruct (decide (a = b)); [subst|]
  end.

Lemma legal_app l1 l2 : legal_trace (l1 ++ l2) -> legal_trace l2.
Proof. induction l1 as [|e l1 IH]; [done|]. intros [_ H]. auto. Qed.

Lemma phase_finished f o (tr : list event) : legal_trace tr -> EFinish f o ∈ tr ->
  phase_of f tr = PhFin ∨ phase_of f tr = PhGone.
Proof.
  induction tr as [|e tr IH]; [by intros _ ?%elem_of_nil|].
  intros [Hl Hleg] [<-|Hin]%elem_of_cons.
  - cbn. rewrite decide_True by done. by left.
  - specialize (IH Hleg Hin). destruct e; cbn [phase_of phase1] in *; try done; dec; try done;
      cbn in Hl; destruct IH; try (destruct_and?; congruence); auto.
Qed.

Lemma phase_created f k b w (tr : list event) : legal_trace tr -> ECreate f k b w ∈ tr -> phase_of f tr ≠ PhNone.
Proof.
  induction tr as [|e tr IH]; [by intros _ ?%elem_of_nil|].
  intros [Hl Hleg] [<-|Hin]%elem_of_cons.
  - cbn. by rewrite decide_True.
  - specialize (IH Hleg Hin). destruct e; cbn [phase_of phase1] in *; try done; dec; try done.
Qed.

Lemma created_unique f k b w k' b' w' (tr : list event) : legal_trace tr ->
  ECreate f k b w ∈ tr -> ECreate f k' b' w' ∈ tr -> k = k' ∧ b = b' ∧ w = w'.
Proof.
  induction tr as [|e tr IH]; [by intros _ ?%elem_of_nil|].
  intros [Hl Hleg] [<-|H1]%elem_of_cons [E|H2]%elem_of_cons.
  - by simplify_eq.
  - destruct (phase_created _ _ _ _ _ Hleg H2). by destruct Hl.
  - subst e. destruct (phase_created _ _ _ _ _ Hleg H1). by destruct Hl.
  - eauto.
Qed.

Lemma phase_gone f (tr : list event) : legal_trace tr -> EDestroy f ∈ tr -> phase_of f tr = PhGone.
Proof.
  induction tr as [|e tr IH]; [by intros _ ?%elem_of_nil|].
  intros [Hl Hleg] [<-|Hin]%elem_of_cons.
  - cbn. by rewrite decide_True.
  - specialize (IH Hleg Hin). destruct e; cbn [phase_of phase1] in *; try done; dec; try done;
      cbn in Hl; destruct_and?; congruence.
Qed.

Lemma gone_destroyed f (tr : list event) : phase_of f tr = PhGone -> EDestroy f ∈ tr.
Proof.
  induction tr as [|e tr IH]; [done|]. destruct e; cbn [phase_of phase1]; dec; try done;
    try (intros; right; by apply IH). intros _. left.
Qed.

Lemma fin_finished f (tr : list event) : legal_trace tr -> phase_of f tr = PhFin ∨ phase_of f tr = PhGone ->
  ∃ o, EFinish f o ∈ tr.
Proof.
  induction tr as [|e tr IH]; [by intros _ [?|?]|]. intros [Hl Hleg] Hp.
  assert (Hrec : phase_of f tr = PhFin ∨ phase_of f tr = PhGone -> ∃ o, EFinish f o ∈ e :: tr).
  { intros H. destruct (IH Hleg H) as [o ?]. exists o. by right. }
  destruct e; cbn [phase_of phase1] in *; try (by apply Hrec); dec; try (by apply Hrec);
    try (by destruct Hp).
  - eexists. left.
  - apply Hrec. left. by destruct Hl.
Qed.

Lemma running_created f (tr : list event) : legal_trace tr -> phase_of f tr ≠ PhNone -> ∃ k b w, ECreate f k b w ∈ tr.
Proof.
  induction tr as [|e tr IH]; [done|]. intros [Hl Hleg] Hp.
  assert (Hrec : phase_of f tr ≠ PhNone -> ∃ k b w, ECreate f k b w ∈ e :: tr).
  { intros H. destruct (IH Hleg H) as (k & b & w & ?). exists k, b, w. by right. }
  destruct e; cbn [phase_of phase1] in *; try (by apply Hrec); dec; try (by apply Hrec);
    try (apply Hrec; cbn in Hl; destruct_and?; congruence).
  eexists _, _, _. left.
Qed.

(** Coroutines in the order in which they started waiting for / were resumed by [h] (oldest first). *)
Lemma waits_split h (tr : list event) : legal_trace tr -> waits h tr = wakes h tr ++ queue h tr.
Proof.
  induction tr as [|e tr IH]; [done|]. intros [Hl Hleg]. specialize (IH Hleg).
  destruct e; cbn [waits wakes queue]; try done; dec; try done.
  - rewrite IH. by rewrite app_assoc.
  - cbn in Hl. destruct Hl as (_ & _ & Hq & _). rewrite IH. destruct (queue h0 tr) as [|x l]; [done|].
    cbn in Hq. injection Hq as ->. cbn. by rewrite <- app_assoc.
Qed.

(** Outcomes obtained from [h] by its consumers, oldest first. *)
Lemma result_deliveries h (tr : list event) : legal_trace tr ->
  match result_of h tr with
  | None => deliveries h tr = [] ∧ ∀ o, EFinish h o ∉ tr
  | Some r => ∃ o, EFinish h o ∈ tr ∧ r = Nat.iter (length (deliveries h tr)) (consumed mv) o ∧
      ∀ i x, deliveries h tr !! i = Some x -> x = Nat.iter i (consumed mv) o
  end.
Proof.
  induction tr as [|e tr IH].
  { cbn. intros _. split; [done|]. by intros o ?%elem_of_nil. }
  intros [Hl Hleg]. specialize (IH Hleg).
  assert (Hskip : (∀ o, e ≠ EFinish h o) -> result_of h (e :: tr) = result_of h tr ->
    deliveries h (e :: tr) = deliveries h tr ->
    match result_of h (e :: tr) with
    | None => deliveries h (e :: tr) = [] ∧ ∀ o, EFinish h o ∉ e :: tr
    | Some r => ∃ o, EFinish h o ∈ e :: tr ∧ r = Nat.iter (length (deliveries h (e :: tr))) (consumed mv) o ∧
      ∀ i x, deliveries h (e :: tr) !! i = Some x -> x = Nat.iter i (consumed mv) o
    end).
  { intros Hne -> ->. destruct (result_of h tr).
    - destruct IH as (o' & ? & ? & ?). exists o'. split; [by right|done].
    - destruct IH as [? IH]. split; [done|]. intros o [E|?]%elem_of_cons; [by destruct (Hne o)|by eapply IH]. }
  assert (Hcons : ∀ f o, result_of h tr = Some o ->
    result_of h (e :: tr) = consumed mv <$> result_of h tr ->
    deliveries h (e :: tr) = deliveries h tr ++ [o] -> e = EWake f h o ∨ e = ENow f h o ->
    match result_of h (e :: tr) with
    | None => deliveries h (e :: tr) = [] ∧ ∀ o, EFinish h o ∉ e :: tr
    | Some r => ∃ o, EFinish h o ∈ e :: tr ∧ r = Nat.iter (length (deliveries h (e :: tr))) (consumed mv) o ∧
      ∀ i x, deliveries h (e :: tr) !! i = Some x -> x = Nat.iter i (consumed mv) o
    end).
  { intros f o Hr -> -> _. rewrite Hr in IH |- *. cbn. destruct IH as (o' & Hin & -> & Hi). exists o'. split_and!.
    - by right.
    - rewrite app_length. cbn. by rewrite Nat.add_1_r.
    - intros i x [Hx|[Hx1 Hx2]]%lookup_app_Some; [eauto|].
      apply list_lookup_singleton_Some in Hx2 as [Hx2 <-]. f_equal. lia. }
  destruct e; try (apply Hskip; done).
  - destruct (decide (h = f)) as [->|Hne].
    + cbn. rewrite decide_True by done. cbn in Hl.
      destruct (result_of f tr) as [r|] eqn:Er.
      * exfalso. destruct IH as (o' & Hin & _). destruct (phase_finished _ _ _ Hleg Hin); congruence.
      * destruct IH as [-> _]. exists o. split_and!; [left|done|]. intros i x Hx. by rewrite lookup_nil in Hx.
    + apply Hskip; cbn; rewrite ?decide_False by done; try done. intros o' [=]. congruence.
  - destruct (decide (h = h0)) as [->|Hne].
    + cbn in Hl. destruct Hl as (_ & _ & _ & Hr). apply (Hcons f o); cbn; rewrite ?decide_True by done; auto.
    + apply Hskip; cbn; rewrite ?decide_False by done; done.
  - destruct (decide (h = h0)) as [->|Hne].
    + cbn in Hl. destruct Hl as (_ & _ & Hr). apply (Hcons f o); cbn; rewrite ?decide_True by done; auto.
    + apply Hskip; cbn; rewrite ?decide_False by done; done.
Qed.

Lemma finish_unique h o o' (tr : list event) : legal_trace tr -> EFinish h o ∈ tr -> EFinish h o' ∈ tr -> o = o'.
Proof.
  induction tr as [|e tr IH]; [by intros _ ?%elem_of_nil|].
  intros [Hl Hleg] [<-|H1]%elem_of_cons [E|H2]%elem_of_cons.
  - by simplify_eq.
  - cbn in Hl. destruct (phase_finished _ _ _ Hleg H2); congruence.
  - subst e. cbn in Hl. destruct (phase_finished _ _ _ Hleg H1); congruence.
  - eauto.
Qed.

Lemma hung_forever f (tr : list event) : legal_trace tr -> EHang f ∈ tr -> phase_of f tr = PhHung.
Proof.
  induction tr as [|e tr IH]; [by intros _ ?%elem_of_nil|].
  intros [Hl Hleg] [<-|Hin]%elem_of_cons.
  - cbn. by rewrite decide_True.
  - specialize (IH Hleg Hin). destruct e; cbn [phase_of phase1] in *; try done; dec; try done;
      cbn in Hl; destruct_and?; congruence.
Qed.
End legal.
