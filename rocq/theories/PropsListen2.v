(** * C114: exactly when a listener goes wrong. The model is ListenModel.v, the vocabulary ListenSpec.v. *)
From stdpp Require Import list option.
From Verif Require Import ListenModel ListenSpec ListenFacts PropsListen.

Section props.
Context {V : Type}.
Implicit Types (s : lst V) (tr : list (lev V)).

(** What must not happen: the consumer is resumed in a co_await that is not done, co_await ++it returns without a value, something is undefined. *)
Definition wrong (e : lev V) : Prop := match e with TEarly | TStale | TUB _ => True | _ => False end.
Definition right tr : Prop := ∀ e, e ∈ tr -> ¬ wrong e.

Lemma right_app (t2 t1 : list (lev V)) : right (t2 ++ t1) -> right t1.
Proof. intros H e He. apply H. apply elem_of_app. by right. Qed.
Lemma linv_right to obj s : lreach to obj s -> linv to obj s -> l_ub s = false -> right (l_tr s).
Proof.
  intros Hr Hi Hu e He Hw. destruct e; try done.
  - apply elem_of_list_split in He as (t2 & t1 & He). by destruct (i_tr _ _ _ Hi _ _ _ He).
  - apply elem_of_list_split in He as (t2 & t1 & He). by destruct (i_tr _ _ _ Hi _ _ _ He).
  - by rewrite (reach_tub _ _ _ Hr _ He) in Hu.
Qed.
Lemma deliver_wrong to obj s s' : linv to obj s -> l_ub s = false -> perform ADeliver s = Some s' -> parked (l_tr s) = false -> parks (l_tr s) ≠ 0 ->
  ∃ e v, l_tr s' = e :: TDeliver v :: l_tr s ∧ wrong e.
Proof.
  intros Hi Hu Hd Hpa Hp. unfold perform in Hd. rewrite Hu in Hd. destruct (idle s) eqn:Hid; [|done]. destruct (l_mail s) as [|v m] eqn:Em; [done|].
  assert (l_alive s = true) as Ha by (destruct (l_alive s) eqn:E; [done|]; destruct (i_dead _ _ _ Hi E) as [? _]; congruence).
  assert (l_aw s = true) as Haw by (rewrite (i_aw _ _ _ Hi Ha); by apply bool_decide_eq_true).
  assert (l_con s = CAway ∨ l_con s = CFin) as Hcon.
  { unfold idle in Hid. pose proof (proj2 (i_park _ _ _ Hi)) as Hx. destruct (l_con s); auto; [done|]. by rewrite Hx in Hpa. }
  injection Hd as <-. pose proof (i_qe _ _ _ Hi Hp) as Hq. unfold queue_slot. cbn.
  assert (∀ s1, l_gen s1 = l_gen s -> l_con s1 = l_con s -> l_queue s1 = [v] -> l_tr s1 = TDeliver v :: l_tr s -> ∃ e v, l_tr (gen_resume s1) = e :: TDeliver v :: l_tr s ∧ wrong e) as H.
  { intros s1 H1 H2 H3 H4. unfold gen_resume. rewrite H1. destruct (l_gen s) eqn:Hg.
    - by destruct Hp; apply (i_init _ _ _ Hi Hg).
    - apply (i_wait _ _ _ Hi Ha) in Hg. destruct Hcon; congruence.
    - unfold gen_loop, queue_ready. rewrite H3, orb_true_r. unfold gen_result, dequeue. rewrite H3. unfold to_consumer. cbn. rewrite H2.
      destruct Hcon as [-> | ->]; cbn; rewrite H4; do 2 eexists; (split; [reflexivity|done]).
    - cbn. rewrite H4. do 2 eexists. split; [reflexivity|done]. }
  destruct (l_to s); cbn; rewrite Haw; apply H; cbn; try done; by rewrite Hq.
Qed.
Lemma right_calm to obj s : lreach to obj s -> right (l_tr s) -> calm (l_tr s) ∧ linv to obj s ∧ l_ub s = false.
Proof.
  induction 1 as [|s s' a Hr IH Hp]; intros Hc.
  - split; [apply always_nil|]. split; [apply linv_init|done].
  - destruct (perform_tail _ _ _ Hp) as [t Ht]. assert (right (l_tr s)) as Hc' by (eapply right_app; rewrite <- Ht; done).
    destruct (IH Hc') as (Hq & Hi & Hu).
    assert (calm (l_tr s')) as Hq'.
    { destruct (ext_perform _ _ _ Hp) as (t' & Ht' & Hd). rewrite Ht'. apply calm_app; [|done]. unfold base. destruct a; try done.
      destruct (l_mail s) as [|v m] eqn:Em; [done|]. apply calm_cons. split; [|done].
      destruct (parked (l_tr s)) eqn:Epa; [by left|]. right. destruct (decide (parks (l_tr s) = 0)) as [?|Hn]; [done|]. exfalso.
      destruct (deliver_wrong _ _ _ _ Hi Hu Hp Epa Hn) as (e & v' & He & Hw). apply (Hc e); [|done]. rewrite He. left. }
    split; [done|]. destruct (linv_step _ _ _ _ _ Hi Hp Hq') as [?|(_ & u & He & _)]; [done|]. exfalso. apply (Hc (TUB u)); [|done]. rewrite He. left.
Qed.

(** Once ended, the generator stays ended. *)
Definition ended s : Prop := l_ub s = false -> TEnd ∈ l_tr s -> l_gen s = GEnd.
Lemma ended_log e s : e ≠ TEnd -> ended s -> ended (log e s).
Proof. intros He H Hu [?|?]%elem_of_cons; [congruence|]. by apply H. Qed.
Lemma ended_resume s : ended s -> ended (gen_resume s).
Proof.
  intros H. assert (∀ s1, (TEnd ∈ l_tr s1 -> l_ub s1 = true) -> ended (gen_result s1)) as H1.
  { intros s1 H1. unfold gen_result, dequeue, to_consumer. destruct (l_queue s1); cbn; destruct (l_con s1); intros Hu He; cbn in *; try done;
      apply elem_of_cons in He as [?|He]; try done; by rewrite (H1 He) in Hu. }
  assert (l_gen s ≠ GEnd -> TEnd ∈ l_tr s -> l_ub s = true) as H2. { intros Hn He. destruct (l_ub s) eqn:Hu; [done|]. by destruct (Hn (H Hu He)). }
  unfold gen_resume. destruct (l_gen s) eqn:Hg.
  - unfold gen_loop. destruct (queue_ready s); [apply H1, H2; congruence|]. intros Hu He. cbn in *. exfalso.
    unfold handle_timeout in *. destruct (l_to s); cbn in *; apply elem_of_cons in He as [?|He]; try done; by rewrite H2 in Hu.
  - apply H1, H2. congruence.
  - unfold gen_loop. destruct (queue_ready s); [apply H1, H2; congruence|]. intros Hu He. cbn in *. exfalso.
    unfold handle_timeout in *. destruct (l_to s); cbn in *; apply elem_of_cons in He as [?|He]; try done; by rewrite H2 in Hu.
  - by intros ?.
Qed.
Lemma ended_step a s s' : ended s -> perform a s = Some s' -> ended s'.
Proof.
  intros H Hp. unfold perform in Hp. destruct (l_ub s) eqn:Hu; [done|]. destruct a.
  - destruct (_ && _); [|done]. injection Hp as <-. destruct (l_conn s); by apply ended_log.
  - destruct (_ && _); [|done]. injection Hp as <-. apply ended_log; [done|]. intros _ He. by apply H.
  - destruct (_ && _); [|done]. injection Hp as <-. apply ended_log; [done|]. intros _ He. by apply H.
  - destruct (idle s); [|done]. destruct (l_mail s) as [|v m]; [done|]. injection Hp as <-. unfold queue_slot.
    assert (ended (log (TDeliver v) s)) as H1 by (by apply ended_log). cbn. destruct (l_to s); cbn; (destruct (l_aw s); [apply ended_resume|]; exact H1).
  - destruct (idle s); [|done]. destruct (match l_timer s with Some d => _ | None => _ end); [|done]. injection Hp as <-. by apply ended_log.
  - destruct (idle s); [|done]. destruct (l_timer s); [|done]. destruct (_ <=? _); [|done]. injection Hp as <-.
    assert (ended (log TFire s)) as H1 by (by apply ended_log). unfold next_slot. cbn. destruct (l_tconns s); [exact H1|]. apply ended_resume. exact H1.
  - assert (s' = next_slot s) as -> by (destruct (l_con s), (l_fire s); naive_solver). unfold next_slot. destruct (l_fire s); [done|]. by apply ended_resume.
  - destruct (idle s); [|done]. destruct (l_out s); [done|]. destruct (l_con s); injection Hp as <-; first [by intros ?|by apply ended_log].
  - destruct (runs s); [|done]. destruct (l_alive s); [|by injection Hp as <-].
    assert (ended (gen_resume (log TAsk (set_con CAsked s)))) by (apply ended_resume; by apply ended_log). destruct (l_gen s); by injection Hp as <-.
  - destruct (runs s); [|done]. injection Hp as <-. by apply ended_log.
  - destruct (runs s); [|done]. injection Hp as <-. by apply ended_log.
Qed.
Lemma reach_ended to obj s : lreach to obj s -> ended s.
Proof. induction 1; [by intros ? ?%elem_of_nil|]. by eapply ended_step. Qed.

(** ** C114 *)
(** A listener that has not gone wrong goes wrong by a step iff: an emission is delivered while the consumer, after it had to wait once, is not waiting for the
    listener; or QTimer::timeout calls a second slot; or the consumer advances past the end or a destroyed generator. *)
Definition goes_wrong (a : act V) tr : Prop :=
  match a with
  | ADeliver => parked tr = false ∧ parks tr ≠ 0
  | ANext => True
  | AAsk => TEnd ∈ tr ∨ TDropped ∈ tr
  | _ => False
  end.
Theorem C114_goes_wrong_exactly to obj s a s' : lreach to obj s -> right (l_tr s) -> perform a s = Some s' ->
  (∃ t2 e t1, l_tr s' = t2 ++ e :: t1 ++ l_tr s ∧ wrong e) <-> goes_wrong a (l_tr s).
Proof.
  intros Hr Hri Hp. destruct (right_calm _ _ _ Hr Hri) as (Hc & Hi & Hu).
  assert (Hr' : lreach to obj s') by (by eapply lreach_S).
  assert (linv to obj s' ∧ l_ub s' = false -> ¬ ∃ t2 e t1, l_tr s' = t2 ++ e :: t1 ++ l_tr s ∧ wrong e) as Hno.
  { intros [Hi' Hu'] (t2 & e & t1 & He & Hw). apply (linv_right _ _ _ Hr' Hi' Hu' e); [|done]. rewrite He. apply elem_of_app. right. left. }
  destruct a; cbn [goes_wrong].
  - split; [|done]. apply Hno. by eapply step_emit.
  - split; [|done]. apply Hno. by eapply step_kill.
  - split; [|done]. apply Hno. by eapply step_drop.
  - split.
    + intros Hw. destruct (parked (l_tr s)) eqn:Epa; [|destruct (decide (parks (l_tr s) = 0)) as [Hz|Hn]; [|done]]; exfalso; revert Hw; apply Hno;
        (eapply step_deliver; [done|done|]); (destruct (ext_perform _ _ _ Hp) as (t' & Ht' & Hd); rewrite Ht'; apply calm_app; [|done]; unfold base;
        destruct (l_mail s); [done|]; apply calm_cons; split; [|done]); [by left|by right].
    + intros [Hpa Hn]. destruct (deliver_wrong _ _ _ _ Hi Hu Hp Hpa Hn) as (e & v & He & Hw). exists [], e, [TDeliver v]. done.
  - split; [|done]. apply Hno. by eapply step_tick.
  - split; [|done]. apply Hno. by eapply step_fire.
  - split; [done|]. intros _. destruct (step_next _ _ _ _ Hi Hp) as (_ & He & _). exists [], (TUB UDone), []. done.
  - split; [|done]. apply Hno. by eapply step_wake.
  - destruct (step_ask _ _ _ _ Hi Hp) as [Hok|(_ & He & Hx)].
    + split; [intros Hw; by destruct (Hno Hok)|]. intros Hx. exfalso. destruct Hok as [_ Hub]. unfold perform in Hp. rewrite Hu in Hp.
      destruct (runs s); [|done]. destruct Hx as [Hx|Hx].
      * assert (l_alive s = true -> l_gen s = GEnd) as Hg.
        { intros _. by apply (reach_ended _ _ _ Hr). }
        destruct (l_alive s); [rewrite (Hg eq_refl) in Hp|]; injection Hp as <-; done.
      * apply (i_alive _ _ _ Hi) in Hx. rewrite Hx in Hp. by injection Hp as <-.
    + split; [|intros _; exists [], (TUB UPastEnd), []; done]. intros _. destruct Hx as [Hx|Hx]; [right; by apply (i_alive _ _ _ Hi)|left; by apply (i_end _ _ _ Hi)].
  - split; [|done]. apply Hno. by eapply step_leave.
  - split; [|done]. apply Hno. by eapply step_finish.
Qed.
(** Nothing else is needed for the guarantees of C36 and C38: histories in which nothing goes wrong are calm. *)
Theorem C114_right_in_order to obj s : lreach to obj s -> right (l_tr s) ->
  calm (l_tr s) ∧ l_ub s = false ∧ got (l_tr s) `prefix_of` delivered (l_tr s) ∧ delivered (l_tr s) `prefix_of` emitted (l_tr s).
Proof.
  intros Hr Hri. destruct (right_calm _ _ _ Hr Hri) as (Hc & _ & Hu). destruct (C36_exactly_once_in_order _ _ _ Hr Hc) as (? & ? & _). done.
Qed.

Definition fires obj s : Prop :=
  (l_fire s ≠ 0 <-> obj = true ∧ TFire ∈ l_tr s ∧ TDropped ∉ l_tr s ∧ TObjGone ∉ l_tr s ∧ 2 ≤ parks (l_tr s)) ∧
  (TFire ∈ l_tr s -> TObjGone ∉ l_tr s -> obj = true -> l_gen s = GEnd) ∧ (TFin ∈ l_tr s -> l_con s = CFin).
(** A step that changes neither and logs nothing of interest. *)
Lemma fires_log obj s s' e : fires obj s -> l_fire s' = l_fire s -> l_gen s' = l_gen s -> l_tr s' = e :: l_tr s ->
  match e with TFire | TDropped | TObjGone | TPark => False | _ => True end -> (TFin ∈ l_tr s' -> l_con s' = CFin) -> fires obj s'.
Proof.
  intros (H1 & H2 & H3) E1 E2 E3 He Hf. unfold fires. split; [|split; [|done]]; rewrite ?E1, ?E2, ?E3.
  - rewrite H1. rewrite parks_cons, !not_elem_of_cons, elem_of_cons. destruct e; try done; naive_solver.
  - intros [?|Hx]%elem_of_cons; [by subst e|]. intros [_ ?]%not_elem_of_cons. by apply H2.
Qed.
Lemma fires_spec to obj s : lreach to obj s -> right (l_tr s) -> fires obj s.
Proof.
  induction 1 as [|s s' a Hr IH Hp]; intros Hri.
  { split; [|split; by intros ?%elem_of_nil]. split; [done|]. by intros (_ & ?%elem_of_nil & _). }
  destruct (perform_tail _ _ _ Hp) as [t Ht]. assert (right (l_tr s)) as Hri0 by (eapply right_app; rewrite <- Ht; done).
  specialize (IH Hri0). destruct (right_calm _ _ _ Hr Hri0) as (Hc & Hi & Hu). pose proof Hp as Hp0.
  pose proof IH as (F1 & F2 & F3).
  unfold perform in Hp. rewrite Hu in Hp. destruct a.
  - destruct (_ && _) eqn:E; [|done]. injection Hp as <-. eapply (fires_log _ s); [done|by destruct (l_conn s)..|done|]. intros [?|?]%elem_of_cons; [done|].
    destruct (l_conn s); cbn; by apply F3.
  - destruct (_ && _) eqn:E; [|done]. injection Hp as <-. split; [|split]; cbn.
    + split; [done|]. intros (_ & _ & _ & Hx & _). destruct Hx. left.
    + intros _ Hx. destruct Hx. left.
    + intros [?|?]%elem_of_cons; [done|]. by apply F3.
  - destruct (_ && _) eqn:E; [|done]. injection Hp as <-. split; [|split]; cbn.
    + split; [done|]. intros (_ & _ & Hx & _). destruct Hx. left.
    + intros [?|?]%elem_of_cons; [done|]. intros [_ ?]%not_elem_of_cons. by apply F2.
    + intros [?|?]%elem_of_cons; [done|]. by apply F3.
  - destruct (idle s) eqn:Hid; [|done]. destruct (l_mail s) as [|v m] eqn:Em; [done|].
    assert (l_alive s = true) as Ha by (destruct (l_alive s) eqn:E; [done|]; destruct (i_dead _ _ _ Hi E) as [? _]; congruence).
    destruct (parked (l_tr s)) eqn:Epa.
    + pose proof (proj1 (i_park _ _ _ Hi) Epa) as Hcon. pose proof (proj1 (i_wait _ _ _ Hi Ha) Hcon) as Hg.
      assert (l_aw s = true) as Haw by (rewrite (i_aw _ _ _ Hi Ha); apply bool_decide_eq_true; by apply parked_parks).
      pose proof (i_waitq _ _ _ Hi Ha Hg) as Hq.
      assert (l_fire s' = l_fire s ∧ l_tr s' = TGot v :: TDeliver v :: l_tr s ∧ l_con s' = CRun) as (E1 & E2 & E3).
      { injection Hp as <-. unfold queue_slot. cbn. destruct (l_to s); cbn; rewrite Haw; unfold gen_resume; cbn; rewrite Hg, Hq; unfold gen_result, dequeue, to_consumer; cbn; by rewrite Hcon. }
      split; [|split]; rewrite ?E1, ?E2.
      * rewrite F1, !parks_cons, !not_elem_of_cons, !elem_of_cons. naive_solver.
      * intros [?|[?|Hx]%elem_of_cons]%elem_of_cons; try done. intros [_ [_ Hy]%not_elem_of_cons]%not_elem_of_cons Hz. specialize (F2 Hx Hy Hz). congruence.
      * intros [?|[?|Hx]%elem_of_cons]%elem_of_cons; try done. specialize (F3 Hx). congruence.
    + destruct (decide (parks (l_tr s) = 0)) as [Hz|Hn].
      * assert (l_aw s = false) as Haw by (rewrite (i_aw _ _ _ Hi Ha); apply bool_decide_eq_false; lia).
        injection Hp as <-. unfold queue_slot. cbn. destruct (l_to s); cbn; rewrite Haw; (eapply (fires_log _ s); try done; intros [?|?]%elem_of_cons; [done|]; by apply F3).
      * exfalso. destruct (deliver_wrong _ _ _ _ Hi Hu Hp0 Epa Hn) as (e & v' & He & Hw). apply (Hri e); [|done]. rewrite He. left.
  - destruct (idle s); [|done]. destruct (match l_timer s with Some d => _ | None => _ end); [|done]. injection Hp as <-. eapply (fires_log _ s); try done.
    intros [?|?]%elem_of_cons; [done|]. by apply F3.
  - destruct (idle s) eqn:Hid; [|done]. destruct (l_timer s) as [dl|] eqn:Et; [|done]. destruct (_ <=? _); [|done].
    destruct (i_timer _ _ _ Hi _ Et) as (Hg & Ha & n & w & u & Hto & Htr & _). pose proof (proj2 (i_wait _ _ _ Hi Ha) Hg) as Hcon.
    assert (TFin ∉ l_tr s) as Hnf by (intros Hx; specialize (F3 Hx); congruence).
    pose proof (i_waitq _ _ _ Hi Ha Hg) as Hq. destruct (l_obj s) eqn:Eo.
    + pose proof (i_tconns _ _ _ Hi Ha Eo) as Htc. rewrite Hto in Htc. pose proof (parked_parks _ (proj2 (i_park _ _ _ Hi) Hcon)) as Hpk.
      pose proof (i_obj _ _ _ Hi) as Hob. rewrite Eo in Hob. destruct Hob as [-> Hog].
      assert (l_fire s' = pred (parks (l_tr s)) ∧ l_tr s' = TEnd :: TFire :: l_tr s ∧ l_gen s' = GEnd) as (E1 & E2 & E3).
      { injection Hp as <-. unfold next_slot. cbn. rewrite Htc. destruct (parks (l_tr s)) as [|k] eqn:Ek; [done|]. unfold timeout_slot, gen_resume, gen_result, dequeue, to_consumer. cbn.
        rewrite Hg, Hq. cbn. by rewrite Hcon. }
      split; [|split]; rewrite ?E1, ?E2; [|by rewrite E3|].
      * rewrite !parks_cons, !not_elem_of_cons, !elem_of_cons. cbn. split; [|intros (_ & _ & _ & _ & ?); lia]. intros Hx. split_and!; try done; [auto| |lia].
        intros Hx'. apply (i_alive _ _ _ Hi) in Hx'. congruence.
      * intros [?|[?|Hx]%elem_of_cons]%elem_of_cons; done.
    + destruct (i_tobj _ _ _ Hi Eo) as [Htc _]. pose proof (i_obj _ _ _ Hi) as Hob. rewrite Eo in Hob.
      injection Hp as <-. unfold next_slot. cbn. rewrite Htc. split; [|split]; cbn.
      * split; [done|]. intros (-> & _ & _ & Hx & _). apply not_elem_of_cons in Hx as [_ Hx]. by destruct Hob.
      * intros _ [_ Hx]%not_elem_of_cons ->. by destruct Hob.
      * intros [?|?]%elem_of_cons; done.
  - exfalso. destruct (step_next _ _ _ _ Hi Hp0) as (_ & He & _). apply (Hri (TUB UDone)); [|done]. rewrite He. left.
  - destruct (idle s); [|done]. destruct (l_out s) eqn:Eo; [done|]. pose proof (i_out _ _ _ Hi) as Ho.
    destruct (l_con s) eqn:Ec; try (by rewrite Ho in Eo). injection Hp as <-. eapply (fires_log _ s); try done.
    intros [?|Hx]%elem_of_cons; [done|]. by specialize (F3 Hx).
  - unfold runs in Hp. destruct (l_con s) eqn:Hcon; try done. assert (TFin ∉ l_tr s) as Hnf by (intros Hx; by specialize (F3 Hx)).
    destruct (l_alive s) eqn:Ha; [|exfalso; injection Hp as <-; by apply (Hri (TUB UPastEnd)); [left|]].
    assert (l_gen s = GEnd ∨ l_gen s ≠ GEnd) as [Hg|Hg] by (destruct (l_gen s); by (left + right)).
    { rewrite Hg in Hp. exfalso. injection Hp as <-. by apply (Hri (TUB UPastEnd)); [left|]. }
    assert (l_gen s ≠ GWait) as Hnw by (intros Hx; apply (i_wait _ _ _ Hi Ha) in Hx; congruence).
    assert (¬ (obj = true ∧ TFire ∈ l_tr s ∧ TObjGone ∉ l_tr s)) as Hnf' by (intros (Hz & Hx & Hy); by apply Hg, F2).
    assert (l_fire s = 0) as Hf0. { destruct (l_fire s) eqn:E; [done|]. destruct (i_fire _ _ _ Hi); [by rewrite E|]. done. }
    assert (s' = gen_loop (log TAsk (set_con CAsked s))) as ->. { unfold gen_resume in Hp. destruct (l_gen s) eqn:E; try done; cbn in Hp; rewrite E in Hp; by injection Hp as <-. }
    assert (∀ e s1, l_fire s1 = 0 -> l_tr s1 = e :: TAsk :: l_tr s -> e ≠ TFire -> e ≠ TFin -> fires obj s1) as Hfin.
    { intros e s1 E1 E2 E3 E4. unfold fires. rewrite E1, E2. split; [|split].
      - split; [done|]. intros (Hz & [?|[?|Hx]%elem_of_cons]%elem_of_cons & _ & [_ [_ Hy]%not_elem_of_cons]%not_elem_of_cons & _); naive_solver.
      - intros [?|[?|Hx]%elem_of_cons]%elem_of_cons [_ [_ Hy]%not_elem_of_cons]%not_elem_of_cons Hz; naive_solver.
      - intros [?|[?|Hx]%elem_of_cons]%elem_of_cons; naive_solver. }
    unfold gen_loop. destruct (queue_ready _).
    + unfold gen_result, dequeue, to_consumer. cbn. destruct (l_queue s); cbn; (eapply Hfin; [done|reflexivity|done|done]).
    + unfold handle_timeout. cbn. destruct (l_to s); (eapply Hfin; [done|reflexivity|done|done]).
  - unfold runs in Hp. destruct (l_con s) eqn:Ec; try done. injection Hp as <-. eapply (fires_log _ s); try done. intros [?|Hx]%elem_of_cons; [done|]. by specialize (F3 Hx).
  - destruct (runs s); [|done]. injection Hp as <-. eapply (fires_log _ s); done.
Qed.
(** When QTimer::timeout calls a second slot: the timeout ended the listener, whose consumer had to wait at least twice, and the consumer then is suspended in another co_await, or
    finished, without having destroyed the generator. *)
Theorem C114_second_slot to obj s : lreach to obj s -> right (l_tr s) ->
  (∃ s', perform ANext s = Some s') <->
  obj = true ∧ TFire ∈ l_tr s ∧ TDropped ∉ l_tr s ∧ TObjGone ∉ l_tr s ∧ 2 ≤ parks (l_tr s) ∧ (away (l_tr s) = true ∨ TFin ∈ l_tr s).
Proof.
  intros Hr Hri. destruct (right_calm _ _ _ Hr Hri) as (Hc & Hi & Hu). destruct (fires_spec _ _ _ Hr Hri) as (F1 & F2 & F3).
  unfold perform. rewrite Hu. split.
  - intros [s' Hp]. destruct (l_fire s) as [|k] eqn:E; [by destruct (l_con s)|]. destruct (proj1 F1) as (? & ? & ? & ? & ?); [done|].
    assert (l_con s = CAway ∨ l_con s = CFin) as [Hx|Hx].
    { destruct (i_fire _ _ _ Hi) as [_ Hx]; [by rewrite E|]. destruct (l_con s); auto; done. }
    + split_and!; try done. left. by apply (i_away _ _ _ Hi).
    + split_and!; try done. right. by apply (i_fin _ _ _ Hi).
  - intros (Hx1 & Hx2 & Hx3 & Hx4 & Hx5 & Hx6). assert (l_fire s ≠ 0) as Hf by (apply F1; done). destruct (l_fire s) as [|k]; [done|].
    assert (l_con s = CAway ∨ l_con s = CFin) as [-> | ->]; [|by eexists..]. destruct Hx6 as [Hx6|Hx6]; [left; by apply (i_away _ _ _ Hi)|right; by apply F3].
Qed.
End props.

Lemma right_b {V} (tr : list (lev V)) : forallb (λ e, match e with TEarly | TStale | TUB _ => false | _ => true end) tr = true -> right tr.
Proof. intros H e He Hw. rewrite forallb_forall in H. specialize (H e (proj1 (elem_of_list_In _ _) He)). by destruct e. Qed.
(** A listener with timeout 2: an emission arrives while the consumer waits; the timeout ends it in the second wait, the consumer awaits something else. *)
Example ex_C114 : let s := play [AAsk; AEmit 1; ADeliver; AAsk; ATick; ATick; AFire; ALeave] (listener (V:=nat) (Some 2) true) in
  lreach (Some 2) true s ∧ right (l_tr s) ∧ (∃ s', perform ANext s = Some s') ∧ TFire ∈ l_tr s ∧ 2 ≤ parks (l_tr s) ∧ away (l_tr s) = true.
Proof.
  cbn zeta. split; [apply play_reach, lreach_0|]. split; [by apply right_b|]. split; [vm_compute; by eexists|]. split_and!; [|vm_compute; lia|done].
  vm_compute. right. right. left.
Qed.
(** An emission is delivered while the consumer awaits something else. *)
Example ex_C114_deliver : ∃ s' : lst nat, let s := play [ALeave; AEmit 2] run37 in
  lreach None true s ∧ right (l_tr s) ∧ perform ADeliver s = Some s' ∧ goes_wrong ADeliver (l_tr s) ∧ TEarly ∈ l_tr s'.
Proof.
  eexists. cbn zeta. split; [do 2 apply play_reach; apply lreach_0|]. split; [by apply right_b|]. split; [vm_compute; reflexivity|]. split; [done|]. vm_compute. left.
Qed.
Print Assumptions C114_goes_wrong_exactly.
Print Assumptions C114_right_in_order.
Print Assumptions C114_second_slot.
