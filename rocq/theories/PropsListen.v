(** * Property theorems C36-C39, C73-C76 (qCoroSignalListener).

    Vocabulary: ListenModel.v (the machine: [lreach to obj s]: after qCoroSignalListener(obj, signal, to) - null object if
    [obj] is false - some history led to [s]; [perform a s]: the action [a] happens in [s]), ListenSpec.v (functions on
    traces, newest event first). *)
From stdpp Require Import list option.
From Verif Require Import ListenModel ListenSpec ListenFacts.

Section props.
Context {V : Type}.
Implicit Types (s : lst V) (tr : list (lev V)).

Lemma no_ev to obj s e : lreach to obj s -> calm (l_tr s) -> (∀ t, ¬ ev_ok to obj e t) -> e ∉ l_tr s.
Proof. intros Hr Hc Hn [t2 [t1 He]]%elem_of_list_split. by apply (Hn t1), (reach_trace _ _ _ Hr Hc t2). Qed.

(** ** C36 *)

(** What the consumer got is, in order and without repetition, the beginning of what was emitted since the listener was
    created; it is never resumed when it should not be. *)
Theorem C36_exactly_once_in_order to obj s :
  lreach to obj s -> calm (l_tr s) ->
  got (l_tr s) `prefix_of` delivered (l_tr s) ∧ delivered (l_tr s) `prefix_of` emitted (l_tr s) ∧
  TEarly ∉ l_tr s ∧ TStale ∉ l_tr s.
Proof.
  intros Hr Hc. split; [|split; [|split; (eapply no_ev; [done|done|by intros ? []])]].
  - destruct (reach_calm _ _ _ Hr Hc) as [[Hi _]|(_ & s0 & u & _ & Hi & _ & -> & _)]; [apply Hi|].
    rewrite got_cons, delivered_cons, !(right_id_L [] (++)). apply Hi.
  - assert (∀ s0, linv to obj s0 -> delivered (l_tr s0) `prefix_of` emitted (l_tr s0)) as H.
    { intros s0 Hi. destruct (i_mail _ _ _ Hi) as (r & -> & _). by apply prefix_app_r. }
    destruct (reach_calm _ _ _ Hr Hc) as [[Hi _]|(_ & s0 & u & _ & Hi & _ & -> & _)]; [by apply H|].
    rewrite emitted_cons, delivered_cons, !(right_id_L [] (++)). by apply H.
Qed.

(** A consumer that waits has got everything the event loop delivered. *)
Theorem C36_nothing_withheld to obj s :
  lreach to obj s -> calm (l_tr s) -> parked (l_tr s) = true -> TDropped ∉ l_tr s -> got (l_tr s) = delivered (l_tr s).
Proof.
  intros Hr Hc Hp Hd.
  assert (∀ s0, linv to obj s0 -> parked (l_tr s0) = true -> TDropped ∉ l_tr s0 -> got (l_tr s0) = delivered (l_tr s0)) as H.
  { clear. intros s0 Hi Hp Hd. assert (l_alive s0 = true) as Ha by (destruct (l_alive s0) eqn:E; [done|]; by apply (i_alive _ _ _ Hi) in E).
    apply (i_park _ _ _ Hi) in Hp. apply (i_wait _ _ _ Hi Ha) in Hp.
    rewrite (i_q _ _ _ Hi Ha), (i_waitq _ _ _ Hi Ha Hp), (right_id_L [] (++)). done. }
  destruct (reach_calm _ _ _ Hr Hc) as [[Hi _]|(_ & s0 & u & _ & Hi & _ & Ht & _)]; [by apply H|].
  rewrite Ht in *. rewrite got_cons, delivered_cons, !(right_id_L [] (++)). apply H; [done|done|]. intros ?. apply Hd. by right.
Qed.

(** What is delivered and not yet consumed is returned by the next co_await ++it (or begin()), synchronously. *)
Theorem C36_pending_returned_at_once to obj s s' v q :
  lreach to obj s -> calm (l_tr s) -> TDropped ∉ l_tr s -> TEnd ∉ l_tr s ->
  delivered (l_tr s) = got (l_tr s) ++ v :: q -> perform AAsk s = Some s' -> l_tr s' = TGot v :: TAsk :: l_tr s.
Proof.
  intros Hr Hc Hd He Hq Hp.
  assert (l_ub s = false) as Hu by (unfold perform in Hp; by destruct (l_ub s)).
  destruct (reach_calm _ _ _ Hr Hc) as [[Hi _]|[? _]]; [|congruence].
  assert (l_alive s = true) as Ha by (destruct (l_alive s) eqn:E; [done|]; by apply (i_alive _ _ _ Hi) in E).
  rewrite (i_q _ _ _ Hi Ha) in Hq. apply (inj (got (l_tr s) ++.)) in Hq.
  unfold perform in Hp. rewrite Hu, Ha in Hp. destruct (runs s) eqn:Hru; [|done].
  assert (l_gen s ≠ GWait) as Hg.
  { intros Hg. apply (i_wait _ _ _ Hi Ha) in Hg. unfold runs in Hru. by rewrite Hg in Hru. }
  pose proof (i_end _ _ _ Hi) as Hen.
  assert (s' = gen_loop (log TAsk (set_con CAsked s))) as -> by (unfold gen_resume in Hp; cbn in Hp; destruct (l_gen s); naive_solver).
  unfold gen_loop, queue_ready, gen_result, dequeue. cbn. rewrite Hq. by destruct (l_obj s).
Qed.

(** No emission gets lost on the way: as long as the object exists, the timeout did not strike and the generator exists, a
    waiting consumer that did not get all emissions is about to get the next one from the event loop. *)
Theorem C36_next_emission_arrives to s :
  lreach to true s -> l_ub s = false -> calm (l_tr s) -> parked (l_tr s) = true ->
  TFire ∉ l_tr s -> TObjGone ∉ l_tr s -> TDropped ∉ l_tr s ->
  ∀ v q, emitted (l_tr s) = got (l_tr s) ++ v :: q ->
  ∃ s', perform ADeliver s = Some s' ∧ l_tr s' = TGot v :: TDeliver v :: l_tr s.
Proof.
  intros Hr Hu Hc Hp Hf Ho Hd v q He.
  pose proof (C36_nothing_withheld _ _ _ Hr Hc Hp Hd) as Hgd.
  destruct (reach_calm _ _ _ Hr Hc) as [[Hi _]|[? _]]; [|congruence].
  assert (l_alive s = true) as Ha by (destruct (l_alive s) eqn:E; [done|]; by apply (i_alive _ _ _ Hi) in E).
  assert (l_obj s = true) as Hob by (pose proof (i_obj _ _ _ Hi) as Hx; destruct (l_obj s); [done|]; by destruct Hx).
  destruct (i_mail _ _ _ Hi) as (r & Hm & Hrr). rewrite (Hrr (i_conn' _ _ _ Hi Ha Hob Hf)), (right_id_L [] (++)) in Hm.
  rewrite Hm, Hgd in He. apply (inj (delivered (l_tr s) ++.)) in He.
  pose proof (proj1 (i_park _ _ _ Hi) Hp) as Hcon. pose proof (proj1 (i_wait _ _ _ Hi Ha) Hcon) as Hg.
  assert (l_fire s = 0) as Hfi by (destruct (l_fire s) eqn:E; [done|]; exfalso; destruct (i_fire _ _ _ Hi); [congruence|done]).
  assert (l_aw s = true) as Haw.
  { rewrite (i_aw _ _ _ Hi Ha). apply bool_decide_eq_true. by apply parked_parks. }
  assert (idle s = true) as Hid by (unfold idle; by rewrite Hcon, Hfi).
  eexists. split; [unfold perform; rewrite Hu, Hid, He; reflexivity|].
  unfold queue_slot, gen_resume, gen_result, dequeue, to_consumer. cbn.
  destruct (l_to s); cbn; rewrite Haw, Hg, (i_waitq _ _ _ Hi Ha Hg); cbn; by rewrite Hcon.
Qed.

(** The usual consumer: a loop over the generator that awaits nothing else. All histories are calm then, and there is no
    undefined behaviour, unless the consumer itself advances the iterator past the end. *)
Theorem C36_plain_consumer to obj s :
  lreach to obj s -> plain (l_tr s) ->
  calm (l_tr s) ∧ (l_ub s = true -> ∃ tr, l_tr s = TUB UPastEnd :: tr).
Proof. apply plain_calm. Qed.

(** The listener ends only if the object is gone, or at the timeout (see C38), and then everything delivered was consumed. *)
Theorem C36_end_after_everything to obj s t2 t1 :
  lreach to obj s -> calm (l_tr s) -> l_tr s = t2 ++ TEnd :: t1 ->
  got t1 = delivered t1 ∧ (obj = false ∨ TObjGone ∈ t1 ∨ to ≠ None).
Proof.
  intros Hr Hc He. destruct (reach_trace _ _ _ Hr Hc _ _ _ He) as [H1 [?|[?|(d & w & u & ? & _)]]]; split; try done.
  - by left.
  - by right; left.
  - right. right. congruence.
Qed.

(** ** C37 *)

(** Violated. The listener only enqueues while the consumer is suspended elsewhere if the consumer never had to wait for the
    listener before ... *)
Theorem C37_enqueued_before_first_wait_partial to obj s s' v q :
  lreach to obj s -> calm (l_tr s) -> away (l_tr s) = true -> parks (l_tr s) = 0 ->
  emitted (l_tr s) = delivered (l_tr s) ++ v :: q -> perform ADeliver s = Some s' ->
  l_tr s' = TDeliver v :: l_tr s ∧ away (l_tr s') = true ∧ l_ub s' = false.
Proof.
  intros Hr Hc Hw Hp He Hd.
  assert (l_ub s = false) as Hu by (unfold perform in Hd; by destruct (l_ub s)).
  destruct (reach_calm _ _ _ Hr Hc) as [[Hi _]|[? _]]; [|congruence].
  destruct (i_mail _ _ _ Hi) as (r & Hm & _). rewrite Hm in He. apply (inj (delivered (l_tr s) ++.)) in He.
  unfold perform in Hd. rewrite Hu in Hd. destruct (idle s); [|done]. destruct (l_mail s) as [|v' m] eqn:Em; [done|].
  injection Hd as <-. cbn in He. injection He as -> _.
  assert (l_aw s = false) as Haw.
  { destruct (l_alive s) eqn:Ha; [|by apply Hi]. rewrite (i_aw _ _ _ Hi Ha). apply bool_decide_eq_false. lia. }
  unfold queue_slot. cbn. destruct (l_to s); cbn; rewrite Haw; cbn; rewrite Hw, Hu; done.
Qed.

(** ... afterwards every emission delivered while the consumer is suspended elsewhere resumes it there. *)
Theorem C37_resumed_in_unrelated_await_refuted to obj s s' :
  lreach to obj s -> calm (l_tr s) -> away (l_tr s) = true -> parks (l_tr s) ≠ 0 ->
  TDropped ∉ l_tr s -> TEnd ∉ l_tr s -> perform ADeliver s = Some s' ->
  ∃ v, l_tr s' = TEarly :: TDeliver v :: l_tr s ∧ l_con s' = CRun ∧ l_queue s' = [].
Proof.
  intros Hr Hc Hw Hp Hdr Hen Hd.
  assert (l_ub s = false) as Hu by (unfold perform in Hd; by destruct (l_ub s)).
  destruct (reach_calm _ _ _ Hr Hc) as [[Hi _]|[? _]]; [|congruence].
  assert (l_alive s = true) as Ha by (destruct (l_alive s) eqn:E; [done|]; by apply (i_alive _ _ _ Hi) in E).
  pose proof (proj1 (i_away _ _ _ Hi) Hw) as Hcon.
  assert (l_aw s = true) as Haw by (rewrite (i_aw _ _ _ Hi Ha); by apply bool_decide_eq_true).
  assert (∃ v0, l_gen s = GYield v0) as [v0 Hg].
  { destruct (l_gen s) eqn:E; [| |by eexists|].
    - by destruct Hp; apply (i_init _ _ _ Hi E).
    - apply (i_wait _ _ _ Hi Ha) in E. congruence.
    - by destruct Hen; apply (i_end _ _ _ Hi E). }
  unfold perform in Hd. rewrite Hu in Hd. destruct (idle s); [|done]. destruct (l_mail s) as [|v m] eqn:Em; [done|].
  injection Hd as <-. exists v. pose proof (i_qe _ _ _ Hi Hp) as Hq.
  unfold queue_slot. cbn. destruct (l_to s); cbn; rewrite Haw, Hq; unfold gen_resume; cbn; rewrite Hg;
    unfold gen_loop, queue_ready; cbn; rewrite orb_true_r; unfold gen_result, dequeue, to_consumer; cbn; rewrite Hcon; done.
Qed.

(** ** C38 *)

(** A listener whose object lives ends exactly when the timeout has passed since the consumer began to wait, nothing having
    been delivered meanwhile. *)
Theorem C38_ends_after_quiet_period to s t2 t1 :
  lreach to true s -> calm (l_tr s) -> l_tr s = t2 ++ TEnd :: t1 -> TObjGone ∉ t1 ->
  ∃ d w u, to = Some d ∧ t1 = TFire :: w ++ TPark :: u ∧ silent w ∧ ticks w = d.
Proof. intros Hr Hc He Ho. by destruct (reach_trace _ _ _ Hr Hc _ _ _ He) as [H1 [?|[?|?]]]. Qed.

(** And it does end then: no consumer waits for longer, and when the time is over the event loop ends the listener. *)
Theorem C38_ends_in_time d s w u :
  lreach (Some d) true s -> l_ub s = false -> calm (l_tr s) -> TObjGone ∉ l_tr s -> TDropped ∉ l_tr s ->
  l_tr s = w ++ TPark :: u -> silent w ->
  ticks w ≤ d ∧
  (ticks w = d -> ∃ s', perform AFire s = Some s' ∧ l_tr s' = TEnd :: TFire :: l_tr s ∧ perform ATick s = None).
Proof.
  intros Hr Hu Hc Ho Hd Ht Hs.
  destruct (reach_calm _ _ _ Hr Hc) as [[Hi _]|[? _]]; [|congruence].
  assert (l_alive s = true) as Ha by (destruct (l_alive s) eqn:E; [done|]; by apply (i_alive _ _ _ Hi) in E).
  assert (l_obj s = true) as Hob by (pose proof (i_obj _ _ _ Hi) as Hx; destruct (l_obj s); [done|]; by destruct Hx).
  assert (parked (l_tr s) = true) as Hp.
  { rewrite Ht. clear -Hs. induction w as [|e w IH]; [done|]. apply silent_cons in Hs as [He Hs]. cbn. destruct e; try done; auto. }
  pose proof (proj1 (i_park _ _ _ Hi) Hp) as Hcon. pose proof (proj1 (i_wait _ _ _ Hi Ha) Hcon) as Hg.
  assert (l_fire s = 0) as Hfi by (destruct (l_fire s) eqn:E; [done|]; exfalso; destruct (i_fire _ _ _ Hi); [congruence|done]).
  pose proof (i_waitt _ _ _ Hi Ha Hob Hg Hfi ltac:(done)) as Htm. destruct (l_timer s) as [dl|] eqn:Et; [|done].
  destruct (i_timer _ _ _ Hi _ Et) as (_ & _ & n & w' & u' & [= <-] & Ht' & Hs' & Hdl & Hle).
  rewrite Ht in Ht'. destruct (silent_split _ _ _ _ Hs Hs' Ht') as [<- <-].
  split; [lia|]. intros Hw. assert (idle s = true) as Hid by (unfold idle; by rewrite Hcon, Hfi).
  assert (dl = l_now s) as -> by lia.
  pose proof (i_tconns _ _ _ Hi Ha Hob) as Htc. cbn in Htc. pose proof (parked_parks _ Hp) as Hpk.
  destruct (parks (l_tr s)) as [|k] eqn:Hk; [done|].
  eexists. split; [unfold perform; rewrite Hu, Hid, Et, Nat.leb_refl; reflexivity|].
  split; [|unfold perform; by rewrite Hu, Hid, Et, Nat.ltb_irrefl].
  unfold next_slot. cbn. rewrite Htc. unfold timeout_slot, gen_resume, gen_result, dequeue, to_consumer. cbn.
  rewrite Hg, (i_waitq _ _ _ Hi Ha Hg). cbn. by rewrite Hcon.
Qed.

(** Without a timeout the listener does not end as long as the object exists. *)
Theorem C38_no_timeout_no_end s : lreach None true s -> calm (l_tr s) -> TEnd ∈ l_tr s -> TObjGone ∈ l_tr s.
Proof.
  intros Hr Hc [t2 [t1 He]]%elem_of_list_split.
  destruct (C36_end_after_everything _ _ _ _ _ Hr Hc He) as [_ [?|[?|?]]]; try done. rewrite He. apply elem_of_app. right. by right.
Qed.

(** ** C39 *)

(** Violated: each co_await that suspends adds a connection of the timer. If the consumer had to wait at least twice, then at the timeout the
    listener is ended, and if the consumer goes on to await something else while the generator exists, the only thing that can
    happen is that the finished generator is resumed. *)
Theorem C39_finished_generator_resumed_refuted d s s1 s2 :
  lreach (Some d) true s -> calm (l_tr s) -> TObjGone ∉ l_tr s -> TDropped ∉ l_tr s -> 2 ≤ parks (l_tr s) ->
  perform AFire s = Some s1 -> perform ALeave s1 = Some s2 ->
  l_tr s2 = TLeave :: TEnd :: TFire :: l_tr s ∧
  ∀ a s3, perform a s2 = Some s3 -> l_tr s3 = TUB UDone :: l_tr s2.
Proof.
  intros Hr Hc Ho Hd Hp Hf Hl.
  assert (l_ub s = false) as Hu by (unfold perform in Hf; by destruct (l_ub s)).
  destruct (reach_calm _ _ _ Hr Hc) as [[Hi _]|[? _]]; [|congruence].
  assert (l_alive s = true) as Ha by (destruct (l_alive s) eqn:E; [done|]; by apply (i_alive _ _ _ Hi) in E).
  assert (l_obj s = true) as Hob by (pose proof (i_obj _ _ _ Hi) as Hx; destruct (l_obj s); [done|]; by destruct Hx).
  unfold perform in Hf. rewrite Hu in Hf. destruct (idle s) eqn:Hid; [|done]. destruct (l_timer s) as [dl|] eqn:Et; [|done].
  destruct (dl <=? l_now s); [|done]. injection Hf as Hs1.
  destruct (i_timer _ _ _ Hi _ Et) as (Hg & _). pose proof (proj2 (i_wait _ _ _ Hi Ha) Hg) as Hcon.
  pose proof (i_tconns _ _ _ Hi Ha Hob) as Htc. cbn in Htc. pose proof (i_waitq _ _ _ Hi Ha Hg) as Hq.
  destruct (parks (l_tr s)) as [|[|k]]; [lia|lia|]. clear Hi Hr Hc Ho Hd Hp Hid.
  assert (l_con s1 = CRun ∧ l_fire s1 = S k ∧ l_gen s1 = GEnd ∧ l_ub s1 = false ∧ l_tr s1 = TEnd :: TFire :: l_tr s) as H1.
  { rewrite <- Hs1. unfold next_slot. cbn. rewrite Htc. unfold timeout_slot, gen_resume, gen_result, dequeue, to_consumer. cbn.
    rewrite Hg, Hq. cbn. by rewrite Hcon. }
  clear Hs1. destruct H1 as (Z1 & Z2 & Z3 & Z4 & Z5).
  unfold perform, runs in Hl. rewrite Z4, Z1 in Hl. injection Hl as Hs2.
  assert (l_con s2 = CAway ∧ l_fire s2 = S k ∧ l_gen s2 = GEnd ∧ l_ub s2 = false ∧ l_tr s2 = TLeave :: TEnd :: TFire :: l_tr s) as H2.
  { rewrite <- Hs2. cbn. by rewrite Z5. }
  clear Hs2. destruct H2 as (Y1 & Y2 & Y3 & Y4 & Y5). split; [done|]. intros a s3 H3.
  unfold perform, runs, idle in H3. rewrite Y4, Y1, Y2 in H3. destruct a; cbn in H3; try done. injection H3 as <-.
  unfold next_slot. rewrite Y2. unfold timeout_slot, gen_resume. cbn. rewrite Y3. done.
Qed.

(** Listeners whose consumer had to wait at most once are safe, and so are all plain consumers (C36_plain_consumer). *)
Theorem C39_single_wait_partial to obj s :
  lreach to obj s -> calm (l_tr s) -> parks (l_tr s) ≤ 1 -> TUB UDone ∉ l_tr s.
Proof.
  intros Hr Hc Hp. destruct (reach_calm _ _ _ Hr Hc) as [[_ ?]|(_ & s0 & u & Hr0 & Hi & Hu0 & Ht & Hub)]; [intros Hin; by rewrite (reach_tub _ _ _ Hr _ Hin) in *|].
  rewrite Ht in *. intros [He|He]%elem_of_cons; [|by rewrite (reach_tub _ _ _ Hr0 _ He) in Hu0].
  injection He as <-. destruct Hub as [Hf _]. rewrite parks_cons in Hp. destruct (i_fire2 _ _ _ Hi); lia.
Qed.

(** ** C73 *)

(** Violated: when the object is destroyed while the consumer waits, the timeout's connection vanishes with it. Once the
    emissions on the way are delivered, nothing ever resumes the consumer. *)
Definition stuck (t2 : list (lev V)) : Prop :=
  ∀ e, e ∈ t2 -> match e with TTick | TFire | TDropped => True | _ => False end.
Inductive lsteps s : lst V -> Prop :=
  | lsteps_0 : lsteps s s
  | lsteps_S s1 s2 a : lsteps s s1 -> perform a s1 = Some s2 -> lsteps s s2.
Theorem C73_never_ends_refuted to obj s s' :
  lreach to obj s -> l_ub s = false -> calm (l_tr s) -> parked (l_tr s) = true -> TObjGone ∈ l_tr s ->
  delivered (l_tr s) = emitted (l_tr s) -> lsteps s s' ->
  parked (l_tr s') = true ∧ ∃ t2, l_tr s' = t2 ++ l_tr s ∧ stuck t2.
Proof.
  intros Hr Hu Hc Hp Ho He Hs.
  destruct (reach_calm _ _ _ Hr Hc) as [[Hi _]|[? _]]; [|congruence].
  assert (l_obj s = false) as Hob by (pose proof (i_obj _ _ _ Hi) as Hx; destruct (l_obj s); [|done]; by destruct Hx).
  destruct (i_mail _ _ _ Hi) as (r & Hm & _). rewrite He in Hm.
  assert (l_mail s = []) as Hma.
  { apply (f_equal length) in Hm. rewrite !app_length in Hm. apply nil_length_inv. lia. }
  destruct (i_tobj _ _ _ Hi Hob) as [Htc Hfi]. pose proof (proj1 (i_park _ _ _ Hi) Hp) as Hcon.
  pose proof (i_out _ _ _ Hi) as Hout. rewrite Hcon in Hout. clear Hr Hc Hi Ho He Hm.
  assert (l_con s' = CAsked ∧ l_obj s' = false ∧ l_mail s' = [] ∧ l_tconns s' = 0 ∧ l_fire s' = 0 ∧ l_out s' = 0 ∧ l_ub s' = false ∧
    parked (l_tr s') = true ∧ ∃ t2, l_tr s' = t2 ++ l_tr s ∧ stuck t2) as H; [|by destruct H as (_ & _ & _ & _ & _ & _ & _ & ? & ?)].
  induction Hs as [|s1 s2 a Hs IH Hpe].
  - split_and!; try done. exists []. split; [done|]. by intros ? ?%elem_of_nil.
  - destruct IH as (Z1 & Z2 & Z3 & Z4 & Z5 & Z6 & Z7 & Z8 & t2 & Z9 & Z10).
    assert (∀ e, match e with TTick | TFire | TDropped => True | _ => False end -> stuck (e :: t2)) as Hst.
    { intros e Hev e' [->|Hin]%elem_of_cons; [done|by apply Z10]. }
    destruct s1 as [Zto Znow Zobj Zconn Zmail Zqueue Zaw Ztimer Ztconns Zgen Zalive Zcon Zout Zfire Zub Ztr]. cbn in *. subst.
    destruct a; cbn in Hpe; try done.
    + destruct Zalive; [|done]. injection Hpe as <-. cbn. split_and!; try done. exists (TDropped :: t2). split; [done|]. by apply Hst.
    + destruct (match Ztimer with Some _ => _ | None => _ end); [|done]. injection Hpe as <-. cbn. split_and!; try done.
      exists (TTick :: t2). split; [done|]. by apply Hst.
    + destruct Ztimer as [dl|]; [|done]. destruct (dl <=? Znow); [|done]. injection Hpe as <-. unfold next_slot. cbn. split_and!; try done.
      exists (TFire :: t2). split; [done|]. by apply Hst.
Qed.
End props.
Print Assumptions C36_exactly_once_in_order.
Print Assumptions C36_nothing_withheld.
Print Assumptions C36_pending_returned_at_once.
Print Assumptions C36_next_emission_arrives.
Print Assumptions C36_plain_consumer.
Print Assumptions C36_end_after_everything.
Print Assumptions C37_enqueued_before_first_wait_partial.
Print Assumptions C37_resumed_in_unrelated_await_refuted.
Print Assumptions C38_ends_after_quiet_period.
Print Assumptions C38_ends_in_time.
Print Assumptions C38_no_timeout_no_end.
Print Assumptions C39_finished_generator_resumed_refuted.
Print Assumptions C39_single_wait_partial.
Print Assumptions C73_never_ends_refuted.

(** ** Concrete histories *)

Lemma play_reach {V} to obj l (s : lst V) : lreach to obj s -> lreach to obj (play l s).
Proof.
  revert s. induction l as [|a l IH]; intros s Hs; [done|]. cbn. destruct (perform a s) eqn:E; [|done]. apply IH. by eapply lreach_S.
Qed.
(** Decision procedures for the examples. *)
Fixpoint calmb {V} (tr : list (lev V)) : bool :=
  match tr with [] => true | e :: tr =>
    match e with TDeliver _ => parked tr || (match parks tr with 0 => true | _ => false end) | _ => true end && calmb tr end.
Lemma calmb_ok {V} (tr : list (lev V)) : calmb tr = true -> calm tr.
Proof.
  induction tr as [|e tr IH]; intros H; [apply always_nil|]. cbn in H. apply andb_prop in H as [H1 H2]. apply calm_cons. split; [|by apply IH].
  destruct e; try done. apply orb_prop in H1 as [?|H1]; [by left|]. right. by destruct (parks tr).
Qed.
Fixpoint plainb {V} (tr : list (lev V)) : bool :=
  match tr with [] => true | e :: tr =>
    match e with TLeave => false | TFin => existsb (λ e, match e with TDropped => true | _ => false end) tr
               | TDropped => negb (parked tr) | _ => true end && plainb tr end.
Lemma plainb_ok {V} (tr : list (lev V)) : plainb tr = true -> plain tr.
Proof.
  induction tr as [|e tr IH]; intros H; [apply always_nil|]. cbn in H. apply andb_prop in H as [H1 H2]. apply always_cons. split; [|by apply IH].
  destruct e; try done; [by destruct (parked tr)|]. apply existsb_exists in H1 as (x & Hx & H1). apply elem_of_list_In in Hx. by destruct x.
Qed.

(** A plain consumer with a timeout of 3: an emission before begin(), one before the next ++it; then the timeout. *)
Definition run36 : lst nat := play
  [AEmit 1; AAsk; ADeliver; AEmit 2; AAsk; ATick; ADeliver; AAsk; ATick; ATick; ATick; AFire; ADrop; AFinish] (listener (Some 3) true).
Example ex36 : lreach (Some 3) true run36 ∧ plain (l_tr run36) ∧ l_ub run36 = false ∧ emitted (l_tr run36) = [1; 2] ∧ got (l_tr run36) = [1; 2] ∧
  l_tr run36 = [TFin; TDropped; TEnd; TFire; TTick; TTick; TTick; TPark; TAsk; TGot 2; TDeliver 2; TTick; TPark; TAsk; TEmit 2; TGot 1; TDeliver 1;
    TPark; TAsk; TEmit 1].
Proof. split; [apply play_reach, lreach_0|]. split; [by apply plainb_ok|]. by vm_compute. Qed.

(** Hypotheses of C36_pending_returned_at_once: two emissions arrive while the consumer is busy before begin(). *)
Definition run36b : lst nat := play [ALeave; AEmit 1; AEmit 2; ADeliver; ADeliver; AWake] (listener None true).
Example ex36b : lreach None true run36b ∧ calm (l_tr run36b) ∧ delivered (l_tr run36b) = got (l_tr run36b) ++ [1; 2] ∧
  ∃ s', perform AAsk run36b = Some s' ∧ l_tr s' = TGot 1 :: TAsk :: l_tr run36b.
Proof. split; [apply play_reach, lreach_0|]. split; [by apply calmb_ok|]. split; [done|]. eexists. split; [vm_compute; reflexivity|done]. Qed.
(** ... of C36_next_emission_arrives. *)
Definition run36c : lst nat := play [AEmit 1; AAsk; ADeliver; AAsk; AEmit 5; AEmit 6] (listener None true).
Example ex36c : lreach None true run36c ∧ calm (l_tr run36c) ∧ parked (l_tr run36c) = true ∧ emitted (l_tr run36c) = got (l_tr run36c) ++ [5; 6].
Proof. split; [apply play_reach, lreach_0|]. split; [by apply calmb_ok|]. done. Qed.

(** C37, as in the documentation: the consumer processes an emission asynchronously, another emission occurs meanwhile. The
    processing is cut short (TEarly), and the emission is lost: co_await ++it waits for the next one. When the processing is
    really done, co_await ++it returns without a new value (TStale). *)
Definition run37 : lst nat := play [AAsk; AEmit 1; ADeliver] (listener None true).
Theorem C37_emission_lost_refuted :
  lreach None true run37 ∧
  ∃ s1 s2 s3, (* the consumer awaits something else; emission of 2 *)
    s1 = play [ALeave; AEmit 2; ADeliver] run37 ∧ l_tr s1 = TEarly :: TDeliver 2 :: TEmit 2 :: TLeave :: l_tr run37 ∧
    perform AAsk s1 = Some s2 ∧ l_tr s2 = TPark :: TAsk :: l_tr s1 ∧ got (l_tr s2) = [1] ∧ delivered (l_tr s2) = [1; 2] ∧
    perform AWake s2 = Some s3 ∧ l_tr s3 = TStale :: l_tr s2 ∧ lreach None true s3.
Proof.
  split; [apply play_reach, lreach_0|].
  exists (play [ALeave; AEmit 2; ADeliver] run37), (play [ALeave; AEmit 2; ADeliver; AAsk] run37), (play [ALeave; AEmit 2; ADeliver; AAsk; AWake] run37).
  split_and!; try (vm_compute; reflexivity). do 2 apply play_reach. apply lreach_0.
Qed.
Print Assumptions C37_emission_lost_refuted.
Example ex37 : calm (l_tr run36b) ∧ ∃ s, s = play [ALeave; AEmit 1] (listener (V:=nat) None true) ∧ calm (l_tr s) ∧ away (l_tr s) = true ∧ parks (l_tr s) = 0 ∧
  emitted (l_tr s) = delivered (l_tr s) ++ [1].
Proof. split; [by apply calmb_ok|]. eexists. split; [reflexivity|]. split; [by apply calmb_ok|]. done. Qed.
Example ex37b : ∃ s, s = play [ALeave; AEmit 2] run37 ∧ calm (l_tr s) ∧ away (l_tr s) = true ∧ parks (l_tr s) ≠ 0 ∧ l_mail s = [2].
Proof. eexists. split; [reflexivity|]. split; [by apply calmb_ok|]. done. Qed.

Example ex38 : ∃ (s : lst nat) w u, lreach (Some 3) true s ∧ calm (l_tr s) ∧ l_tr s = w ++ TPark :: u ∧ silent w ∧ ticks w = 3 ∧ u ≠ [].
Proof.
  exists (play [AEmit 1; AAsk; ADeliver; AAsk; ATick; ATick; AEmit 4; ATick] (listener (V:=nat) (Some 3) true)), [TTick; TEmit 4; TTick; TTick].
  eexists. split; [apply play_reach, lreach_0|]. split; [by apply calmb_ok|]. split; [vm_compute; reflexivity|].
  split; [|done]. intros e He. rewrite !elem_of_cons, elem_of_nil in He. naive_solver.
Qed.

(** C39: two waits, a timeout, then the consumer awaits something else (the generator is a local variable and still exists). *)
Definition run39 : lst nat := play [AAsk; AEmit 1; ADeliver; AAsk; ATick; ATick; AFire; ALeave; ANext] (listener (Some 2) true).
Theorem C39_two_waits_refuted :
  lreach (Some 2) true run39 ∧ calm (l_tr run39) ∧
  l_tr run39 = [TUB UDone; TLeave; TEnd; TFire; TTick; TTick; TPark; TAsk; TGot 1; TDeliver 1; TEmit 1; TPark; TAsk].
Proof. split; [apply play_reach, lreach_0|]. split; [by apply calmb_ok|]. done. Qed.
Print Assumptions C39_two_waits_refuted.

(** C73: with a timeout of 2, the object is destroyed while the consumer waits. *)
Definition run73 : lst nat := play [AAsk; ATick; AKill; ATick; AFire; ATick; ATick] (listener (Some 2) true).
Example ex73 : lreach (Some 2) true run73 ∧ l_ub run73 = false ∧ calm (l_tr run73) ∧
  l_tr run73 = [TTick; TTick; TFire; TTick; TObjGone; TTick; TPark; TAsk] ∧ delivered (l_tr run73) = emitted (l_tr run73).
Proof. split; [apply play_reach, lreach_0|]. split; [done|]. split; [by apply calmb_ok|]. done. Qed.

(** ** C74 *)

(** Violated: an emission that is on its way when the object is destroyed is lost if the consumer asks before it arrives. *)
Definition run74 : lst nat := play [AEmit 1; AKill; AAsk] (listener None true).
Theorem C74_emission_lost_refuted :
  lreach None true run74 ∧ plain (l_tr run74) ∧ l_tr run74 = [TEnd; TAsk; TObjGone; TEmit 1].
Proof. split; [apply play_reach, lreach_0|]. split; [by apply plainb_ok|]. done. Qed.
Print Assumptions C74_emission_lost_refuted.

(** ** C75 *)

(** Violated (documentation: without timeout "the generator will never terminate on its own, even if the obj QObject is
    destroyed"): once the object is destroyed, and all delivered emissions consumed, the next co_await ends the generator. *)
Theorem C75_ends_with_object_refuted {V} obj (s s' : lst V) :
  lreach None obj s -> calm (l_tr s) -> TObjGone ∈ l_tr s -> TDropped ∉ l_tr s -> TEnd ∉ l_tr s ->
  got (l_tr s) = delivered (l_tr s) -> perform AAsk s = Some s' -> l_tr s' = TEnd :: TAsk :: l_tr s.
Proof.
  intros Hr Hc Ho Hd He Hg Hp.
  assert (l_ub s = false) as Hu by (unfold perform in Hp; by destruct (l_ub s)).
  destruct (reach_calm _ _ _ Hr Hc) as [[Hi _]|[? _]]; [|congruence].
  assert (l_alive s = true) as Ha by (destruct (l_alive s) eqn:E; [done|]; by apply (i_alive _ _ _ Hi) in E).
  assert (l_obj s = false) as Hob by (pose proof (i_obj _ _ _ Hi) as Hx; destruct (l_obj s); [|done]; by destruct Hx).
  assert (l_queue s = []) as Hq.
  { pose proof (i_q _ _ _ Hi Ha) as H. rewrite Hg in H. apply (f_equal length) in H. rewrite app_length in H. apply nil_length_inv. lia. }
  unfold perform in Hp. rewrite Hu, Ha in Hp. destruct (runs s) eqn:Hru; [|done].
  assert (l_gen s ≠ GWait) as Hgw.
  { intros Hgw. apply (i_wait _ _ _ Hi Ha) in Hgw. unfold runs in Hru. by rewrite Hgw in Hru. }
  pose proof (i_end _ _ _ Hi) as Hen.
  assert (s' = gen_loop (log TAsk (set_con CAsked s))) as -> by (unfold gen_resume in Hp; cbn in Hp; destruct (l_gen s); naive_solver).
  unfold gen_loop, queue_ready, gen_result, dequeue, to_consumer. cbn. rewrite Hob, Hq. done.
Qed.
Print Assumptions C75_ends_with_object_refuted.
Example ex75 : ∃ s, s = play [AAsk; AEmit 1; ADeliver; AKill] (listener (V:=nat) None true) ∧ calm (l_tr s) ∧
  l_tr s = [TObjGone; TGot 1; TDeliver 1; TEmit 1; TPark; TAsk] ∧ got (l_tr s) = delivered (l_tr s).
Proof. eexists. split; [reflexivity|]. split; [by apply calmb_ok|]. done. Qed.

(** ** C76 *)

(** Violated: an emission that is delivered after the timeout ended the listener resumes the finished generator. *)
Definition run76 : lst nat := play [AAsk; ATick; ATick; AEmit 1; AFire; ALeave; ADeliver] (listener (Some 2) true).
Theorem C76_late_delivery_refuted :
  lreach (Some 2) true run76 ∧ l_tr run76 = [TUB UDone; TDeliver 1; TLeave; TEnd; TFire; TEmit 1; TTick; TTick; TPark; TAsk].
Proof. split; [apply play_reach, lreach_0|]. done. Qed.
Print Assumptions C76_late_delivery_refuted.
