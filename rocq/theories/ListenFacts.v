(** * Invariants of the listener machine. *)
From stdpp Require Import list option.
From Verif Require Import ListenModel ListenSpec.

Section facts.
Context {V : Type}.
Implicit Types tr : list (lev V).
Implicit Types s : lst V.

Lemma always_nil (P : lev V -> list (lev V) -> Prop) : always P [].
Proof. intros [|??] ?? [=]. Qed.
Lemma always_cons (P : lev V -> list (lev V) -> Prop) e tr : always P (e :: tr) <-> P e tr ∧ always P tr.
Proof.
  split.
  - intros H. split; [by apply (H [])|]. intros t2 e' t1 ->. by apply (H (e :: t2)).
  - intros [H1 H2] [|e2 t2] e' t1 He; cbn in He; injection He as -> ->; [done|by eapply H2].
Qed.

Lemma emitted_cons e tr : emitted (e :: tr) = emitted tr ++ match e with TEmit v => [v] | _ => [] end.
Proof. unfold emitted. destruct e; rewrite ?(right_id_L [] (++)); try done. by rewrite <- reverse_cons. Qed.
Lemma delivered_cons e tr : delivered (e :: tr) = delivered tr ++ match e with TDeliver v => [v] | _ => [] end.
Proof. unfold delivered. destruct e; rewrite ?(right_id_L [] (++)); try done. by rewrite <- reverse_cons. Qed.
Lemma got_cons e tr : got (e :: tr) = got tr ++ match e with TGot v => [v] | _ => [] end.
Proof. unfold got. destruct e; rewrite ?(right_id_L [] (++)); try done. by rewrite <- reverse_cons. Qed.
Lemma parks_cons e tr : parks (e :: tr) = match e with TPark => 1 | _ => 0 end + parks tr.
Proof. unfold parks. by destruct e. Qed.
Lemma ticks_cons e tr : ticks (e :: tr) = match e with TTick => 1 | _ => 0 end + ticks tr.
Proof. unfold ticks. by destruct e. Qed.
Lemma ticks_app (t2 t1 : list (lev V)) : ticks (t2 ++ t1) = ticks t2 + ticks t1.
Proof. unfold ticks. by rewrite omap_app, app_length. Qed.
Lemma calm_cons e tr : calm (e :: tr) <-> match e with TDeliver _ => parked tr = true ∨ parks tr = 0 | _ => True end ∧ calm tr.
Proof. apply always_cons. Qed.

(** The trace of a calm history. *)
Definition end_ok (to : option nat) (obj : bool) tr : Prop :=
  got tr = delivered tr ∧
  (obj = false ∨ TObjGone ∈ tr ∨
   ∃ d w u, to = Some d ∧ tr = TFire :: w ++ TPark :: u ∧ silent w ∧ ticks w = d).

Definition ev_ok (to : option nat) (obj : bool) (e : lev V) tr : Prop :=
  match e with
  | TPark => got tr = delivered tr
  | TGot v => got tr ++ [v] `prefix_of` delivered tr
  | TEnd => end_ok to obj tr
  | TEarly | TStale => False
  | _ => True
  end.

Record linv (to : option nat) (obj : bool) s : Prop := {
  i_to : l_to s = to;
  i_obj : if l_obj s then obj = true ∧ TObjGone ∉ l_tr s else obj = false ∨ TObjGone ∈ l_tr s;
  i_conn : l_conn s = true -> l_obj s = true;
  i_park : parked (l_tr s) = true <-> l_con s = CAsked;
  i_away : away (l_tr s) = true <-> l_con s = CAway;
  i_out : l_out s = match l_con s with CAway => 1 | _ => 0 end;
  i_fin : l_con s = CFin -> TFin ∈ l_tr s;
  i_aw : l_alive s = true -> l_aw s = bool_decide (parks (l_tr s) ≠ 0);
  i_aw' : l_alive s = false -> l_aw s = false;
  i_wait : l_alive s = true -> l_con s = CAsked <-> l_gen s = GWait;
  i_waitq : l_alive s = true -> l_gen s = GWait -> l_queue s = [];
  i_init : l_gen s = GInit -> parks (l_tr s) = 0;
  i_q : l_alive s = true -> delivered (l_tr s) = got (l_tr s) ++ l_queue s;
  i_pre : got (l_tr s) `prefix_of` delivered (l_tr s);
  i_dead : l_alive s = false -> l_mail s = [] ∧ l_queue s = [] ∧ l_timer s = None ∧ l_tconns s = 0 ∧ l_fire s = 0 ∧ l_conn s = false;
  i_mail : ∃ r, emitted (l_tr s) = delivered (l_tr s) ++ l_mail s ++ r ∧ (l_conn s = true -> r = []);
  i_alive : l_alive s = false <-> TDropped ∈ l_tr s;
  i_conn' : l_alive s = true -> l_obj s = true -> TFire ∉ l_tr s -> l_conn s = true;
  i_timer : ∀ d, l_timer s = Some d -> l_gen s = GWait ∧ l_alive s = true ∧
     ∃ n w u, to = Some n ∧ l_tr s = w ++ TPark :: u ∧ silent w ∧ d + ticks w = l_now s + n ∧ l_now s ≤ d;
  i_tconns : l_alive s = true -> l_obj s = true -> l_tconns s = match to with Some _ => parks (l_tr s) | None => 0 end;
  i_tobj : l_obj s = false -> l_tconns s = 0 ∧ l_fire s = 0;
  i_waitt : l_alive s = true -> l_obj s = true -> l_gen s = GWait -> l_fire s = 0 -> to ≠ None -> l_timer s ≠ None;
  i_fire : l_fire s ≠ 0 -> l_gen s = GEnd ∧ l_con s ≠ CAsked;
  i_qe : parks (l_tr s) ≠ 0 -> l_queue s = [];
  i_end : l_gen s = GEnd -> TEnd ∈ l_tr s;
  i_fire2 : l_fire s = 0 ∨ S (l_fire s) ≤ parks (l_tr s);
  i_tr : always (ev_ok to obj) (l_tr s) }.

Lemma linv_init to obj : linv to obj (listener to obj).
Proof.
  split; cbn; try done; try (by destruct obj); try (by intros ->); try tauto.
  all: try (rewrite elem_of_nil; tauto). all: try apply always_nil. all: try (by exists []).
  all: try (by destruct to). all: try (rewrite elem_of_nil; done).
  destruct obj; [|by left]. split; [done|]. by intros ?%elem_of_nil.
Qed.

Lemma silent_cons e tr : silent (e :: tr) <-> match e with TEmit _ | TTick | TObjGone => True | _ => False end ∧ silent tr.
Proof.
  split.
  - intros H. split; [apply (H e); left|]. intros e' He. apply H. by right.
  - intros [H1 H2] e' [->|He]%elem_of_cons; [done|]. by apply H2.
Qed.
Lemma always_ev to obj e tr : always (ev_ok to obj) tr -> ev_ok to obj e tr -> always (ev_ok to obj) (e :: tr).
Proof. rewrite always_cons. done. Qed.

#[local] Arguments emitted : simpl never.
#[local] Arguments delivered : simpl never.
#[local] Arguments got : simpl never.
#[local] Arguments parks : simpl never.
#[local] Arguments ticks : simpl never.

Ltac norm := rewrite ?emitted_cons, ?delivered_cons, ?got_cons, ?parks_cons, ?ticks_cons, ?elem_of_cons, ?(right_id_L [] (++)) in *.
Ltac opened s :=
  destruct s as [Zto Znow Zobj Zconn Zmail Zqueue Zaw Ztimer Ztconns Zgen Zalive Zcon Zout Zfire Zub Ztr].
Ltac crush := split; cbn; norm; try done; try tauto; try (by intuition congruence);
  try match goal with H : if ?b then _ else _ |- if ?b then _ else _ => destruct b; rewrite ?elem_of_cons in *; by intuition congruence end;
  try match goal with |- _ ∧ ¬ _ => by intuition congruence end.

Lemma step_emit to obj s s' v : linv to obj s -> perform (AEmit v) s = Some s' -> linv to obj s' ∧ l_ub s' = false.
Proof.
  intros H Hp. destruct H. unfold perform in Hp. destruct (l_ub s) eqn:Hu; [done|]. destruct (_ && _) eqn:E; [|done]. injection Hp as <-.
  apply andb_prop in E as [E1 E2].
  opened s. cbn in E2. subst. destruct Zconn; cbn in *; (split; [|done]); crush.
  - destruct i_mail0 as (r & -> & Hr). exists []. rewrite (Hr eq_refl), !(right_id_L [] (++)), (assoc_L (++)). done.
  - intros d Hd. destruct (i_timer0 d Hd) as (? & ? & n & w & u & ? & -> & Hs & ? & ?). split; [done|]. split; [done|].
    exists n, (TEmit v :: w), u. rewrite silent_cons, ticks_cons. done.
  - by apply always_ev.
  - destruct i_mail0 as (r & -> & Hr). exists (r ++ [v]). rewrite <- !(assoc_L (++)). done.
  - intros d Hd. destruct (i_timer0 d Hd) as (? & ? & n & w & u & ? & -> & Hs & ? & ?). split; [done|]. split; [done|].
    exists n, (TEmit v :: w), u. rewrite silent_cons, ticks_cons. done.
  - by apply always_ev.
Qed.

Lemma step_kill to obj s s' : linv to obj s -> perform AKill s = Some s' -> linv to obj s' ∧ l_ub s' = false.
Proof.
  intros H Hp. destruct H. unfold perform in Hp. destruct (l_ub s) eqn:Hu; [done|]. destruct (_ && _) eqn:E; [|done]. injection Hp as <-.
  apply andb_prop in E as [E1 E2].
  opened s. cbn in E2. subst. cbn in *; (split; [|done]); crush.
  - destruct i_mail0 as (r & -> & Hr). by exists r.
  - intros d Hd. destruct (i_timer0 d Hd) as (? & ? & n & w & u & ? & -> & Hs & ? & ?). split; [done|]. split; [done|].
    exists n, (TObjGone :: w), u. rewrite silent_cons, ticks_cons. done.
  - by apply always_ev.
Qed.

Lemma step_drop to obj s s' : linv to obj s -> perform ADrop s = Some s' -> linv to obj s' ∧ l_ub s' = false.
Proof.
  intros H Hp. destruct H. unfold perform in Hp. destruct (l_ub s) eqn:Hu; [done|]. destruct (_ && _) eqn:E; [|done]. injection Hp as <-.
  apply andb_prop in E as [E1 E2].
  opened s. cbn in E2. subst. cbn in *; (split; [|done]); crush.
  - destruct i_mail0 as (r & -> & Hr). exists (Zmail ++ r). done.
  - by apply always_ev.
Qed.

Lemma step_tick to obj s s' : linv to obj s -> perform ATick s = Some s' -> linv to obj s' ∧ l_ub s' = false.
Proof.
  intros H Hp. destruct H. unfold perform in Hp. destruct (l_ub s) eqn:Hu; [done|]. destruct (idle s) eqn:E1; [|done].
  destruct (match l_timer s with Some d => _ | None => _ end) eqn:E2; [|done]. injection Hp as <-.
  opened s. cbn in *; (split; [|done]); crush.
  - intros d ->. apply Nat.ltb_lt in E2. destruct (i_timer0 d eq_refl) as (? & ? & n & w & u & ? & -> & Hs & ? & ?). split; [done|]. split; [done|].
    exists n, (TTick :: w), u. rewrite silent_cons, ticks_cons. repeat split; try done; lia.
  - by apply always_ev.
Qed.

Lemma step_wake to obj s s' : linv to obj s -> perform AWake s = Some s' -> linv to obj s' ∧ l_ub s' = false.
Proof.
  intros H Hp. destruct H. unfold perform in Hp. destruct (l_ub s) eqn:Hu; [done|]. destruct (idle s) eqn:E1; [|done].
  opened s. cbn in *. rewrite i_out0 in Hp. destruct Zcon; try done. injection Hp as <-. (split; [|done]); crush.
  - intros d Hd. destruct (i_timer0 d Hd) as (? & ? & n & w & u & ? & -> & Hs & ? & ?). exfalso. intuition congruence.
  - by apply always_ev.
Qed.

Lemma step_leave to obj s s' : linv to obj s -> perform ALeave s = Some s' -> linv to obj s' ∧ l_ub s' = false.
Proof.
  intros H Hp. destruct H. unfold perform in Hp. destruct (l_ub s) eqn:Hu; [done|]. destruct (runs s) eqn:E1; [|done].
  opened s. cbn in *. injection Hp as <-. destruct Zcon; try done. (split; [|done]); crush.
  - intros d Hd. destruct (i_timer0 d Hd) as (? & ? & n & w & u & ? & -> & Hs & ? & ?). exfalso. intuition congruence.
  - by apply always_ev.
Qed.

Lemma step_finish to obj s s' : linv to obj s -> perform AFinish s = Some s' -> linv to obj s' ∧ l_ub s' = false.
Proof.
  intros H Hp. destruct H. unfold perform in Hp. destruct (l_ub s) eqn:Hu; [done|]. destruct (runs s) eqn:E1; [|done].
  opened s. cbn in *. injection Hp as <-. destruct Zcon; try done. (split; [|done]); crush.
  - intros d Hd. destruct (i_timer0 d Hd) as (? & ? & n & w & u & ? & -> & Hs & ? & ?). exfalso. intuition congruence.
  - by apply always_ev.
Qed.

Lemma parked_parks tr : parked tr = true -> parks tr ≠ 0.
Proof. induction tr as [|e tr IH]; [done|]. rewrite parks_cons. destruct e; cbn; try done. Qed.

Lemma queue_slot_calm (v : V) s : calm (l_tr (queue_slot v (log (TDeliver v) s))) -> parked (l_tr s) = true ∨ parks (l_tr s) = 0.
Proof.
  intros Hc. assert (calm (TDeliver v :: l_tr s)) as Hx; [|apply calm_cons in Hx; tauto].
  destruct s as [Zto Znow Zobj Zconn Zmail Zqueue Zaw Ztimer Ztconns Zgen Zalive Zcon Zout Zfire Zub Ztr]. unfold queue_slot in Hc; cbn in Hc. 
  revert Hc. unfold gen_resume, gen_loop, gen_result, to_consumer, dequeue, queue_ready. destruct Zto, Zaw; cbn; try done;
      destruct Zgen; cbn; try done; destruct Zobj; cbn; try done; destruct Zqueue; cbn; try done; destruct Zcon; cbn; rewrite ?(calm_cons _ (TDeliver v :: Ztr)); tauto.
Qed.
Lemma step_deliver to obj s s' :
  linv to obj s -> perform ADeliver s = Some s' -> calm (l_tr s') -> linv to obj s' ∧ l_ub s' = false.
Proof.
  intros H Hp Hc. destruct H. unfold perform in Hp. destruct (l_ub s) eqn:Hu; [done|]. destruct (idle s) eqn:E1; [|done].
  opened s. cbn in *. destruct Zmail as [|v m]; [done|]. injection Hp as <-.
  assert (Zalive = true) as -> by (destruct Zalive; [done|]; by destruct (i_dead0 eq_refl) as [? _]).
  assert (parked Ztr = true ∨ parks Ztr = 0) as Hq.
  { clear -Hc. exact (queue_slot_calm _ _ Hc). }
  clear Hc. specialize (i_aw0 eq_refl). specialize (i_q0 eq_refl). specialize (i_wait0 eq_refl). specialize (i_waitq0 eq_refl).
  destruct i_mail0 as (r & Hm & Hr).
  destruct (decide (parks Ztr = 0)) as [Hz|Hz].
  - rewrite bool_decide_eq_false_2 in i_aw0 by tauto. subst Zaw.
    assert (Zcon ≠ CAsked) as Hcn by (intros He; by apply (parked_parks Ztr); [tauto|]).
    assert (Zgen ≠ GWait) as Hg by tauto.
    assert (Ztimer = None) as -> by (destruct Ztimer as [d|]; [|done]; exfalso; destruct (i_timer0 d eq_refl); tauto).
    unfold queue_slot; cbn. destruct Zto as [n|]; cbn; (split; [|done]); crush.
    all: try (intros _; rewrite i_q0, <- (assoc_L (++)); done).
    all: try (by apply prefix_app_r).
    all: try (by apply always_ev).
    all: try (exists r; rewrite Hm; rewrite <- !(assoc_L (++)); done).
    all: try (intros _; by rewrite bool_decide_eq_false_2 by tauto).
  - destruct Hq as [Hq|]; [|done]. rewrite bool_decide_eq_true_2 in i_aw0 by done. subst Zaw.
    pose proof (proj1 i_park0 Hq) as ->. pose proof (proj1 i_wait0 eq_refl) as ->. rewrite (i_waitq0 eq_refl) in *.
    rewrite (right_id_L [] (++)) in i_q0.
    unfold queue_slot, gen_resume, gen_result, dequeue, to_consumer; cbn. destruct Zto as [n|]; cbn; (split; [|done]); crush.
    all: try (intros _; by rewrite bool_decide_eq_true_2).
    all: try (by rewrite i_q0).
    all: try (exists r; rewrite Hm; rewrite <- !(assoc_L (++)); done).
    all: try (apply always_ev; [by apply always_ev|]; cbn; rewrite got_cons, delivered_cons, i_q0, (right_id_L [] (++)); done).
    intros d Hd. destruct (i_timer0 d Hd) as (_ & _ & n & w & u & Ht & _). congruence.
Qed.

Lemma step_ask to obj s s' :
  linv to obj s -> perform AAsk s = Some s' ->
  (linv to obj s' ∧ l_ub s' = false) ∨ (l_ub s' = true ∧ l_tr s' = TUB UPastEnd :: l_tr s ∧ (l_alive s = false ∨ l_gen s = GEnd)).
Proof.
  intros H Hp. destruct H. unfold perform in Hp. destruct (l_ub s) eqn:Hu; [done|]. destruct (runs s) eqn:E1; [|done].
  opened s. cbn in *. destruct Zcon; try done.
  destruct Zalive; [|injection Hp as <-; right; cbn; tauto].
  specialize (i_aw0 eq_refl). specialize (i_q0 eq_refl). specialize (i_wait0 eq_refl). specialize (i_waitq0 eq_refl).
  destruct i_mail0 as (r & Hm & Hr).
  assert (Ztimer = None) as -> by (destruct Ztimer as [d|]; [|done]; exfalso; destruct (i_timer0 d eq_refl); intuition congruence).
  assert (Zgen = GEnd ∨ Zfire = 0 ∧ perform AAsk
    (Lst Zto Znow Zobj Zconn Zmail Zqueue Zaw None Ztconns Zgen true CRun Zout Zfire Zub Ztr) = Some (gen_loop (log TAsk 
    (Lst Zto Znow Zobj Zconn Zmail Zqueue Zaw None Ztconns Zgen true CAsked Zout Zfire Zub Ztr)))) as [->|[-> He]].
  { destruct Zgen; try (by left); try (exfalso; intuition congruence); right; subst Zub; (split; [|done]);
      destruct Zfire; try done; exfalso; by destruct i_fire0. }
  { injection Hp as <-. right; cbn; tauto. }
  unfold perform in He. cbn in He. subst Zub. rewrite Hp in He. injection He as ->. left.
  unfold gen_loop, queue_ready. destruct Zobj; cbn.
  - destruct Zqueue as [|v q]; cbn.
    + rewrite (right_id_L [] (++)) in i_q0. unfold handle_timeout; cbn. destruct Zto as [n|]; cbn; (split; [|done]); crush.
      all: try (exists r; rewrite Hm; done).
      all: try (apply always_ev; [by apply always_ev|]; cbn; rewrite got_cons, delivered_cons, i_q0, (right_id_L [] (++)); done).
      * intros d [= <-]. split; [done|]. split; [done|]. exists n, [], (TAsk :: Ztr). split; [done|]. split; [done|].
        split; [by intros ? ?%elem_of_nil|]. unfold ticks; cbn. lia.
      * intros _ _. subst to. rewrite i_tconns0 by done. done.
      * intros _ _. subst to. rewrite i_tconns0 by done. done.
    + unfold gen_result, dequeue, to_consumer; cbn. (split; [|done]); crush.
      * rewrite i_q0. intros _. by rewrite <- (assoc_L (++)).
      * rewrite i_q0. apply prefix_app. apply prefix_cons, prefix_nil.
      * by exists r.
      * apply always_ev; [by apply always_ev|]; cbn; rewrite got_cons, delivered_cons, i_q0, !(right_id_L [] (++)).
        apply prefix_app. apply prefix_cons, prefix_nil.
  - unfold gen_result, dequeue. destruct Zqueue as [|v q]; unfold to_consumer; cbn.
    + rewrite (right_id_L [] (++)) in i_q0. (split; [|done]); crush.
      * by exists r.
      * apply always_ev; [by apply always_ev|]; cbn. split; [rewrite got_cons, delivered_cons, i_q0, !(right_id_L [] (++)); done|].
        rewrite elem_of_cons. tauto.
    + (split; [|done]); crush.
      * rewrite i_q0. intros _. by rewrite <- (assoc_L (++)).
      * rewrite i_q0. apply prefix_app. apply prefix_cons, prefix_nil.
      * by exists r.
      * apply always_ev; [by apply always_ev|]; cbn; rewrite got_cons, delivered_cons, i_q0, !(right_id_L [] (++)).
        apply prefix_app. apply prefix_cons, prefix_nil.
Qed.

Lemma step_fire to obj s s' : linv to obj s -> perform AFire s = Some s' -> linv to obj s' ∧ l_ub s' = false.
Proof.
  intros H Hp. destruct H. unfold perform in Hp. destruct (l_ub s) eqn:Hu; [done|]. destruct (idle s) eqn:E1; [|done].
  opened s. cbn in *. destruct Ztimer as [d|]; [|done]. destruct (d <=? Znow) eqn:Hle; [|done]. injection Hp as <-.
  apply Nat.leb_le in Hle. destruct (i_timer0 d eq_refl) as (-> & -> & n & w & u & Hto & Htr & Hs & Hd & Hd2).
  specialize (i_aw0 eq_refl). specialize (i_q0 eq_refl). specialize (i_wait0 eq_refl). specialize (i_waitq0 eq_refl eq_refl). subst Zqueue.
  pose proof (proj2 i_wait0 eq_refl) as ->. rewrite (right_id_L [] (++)) in i_q0.
  destruct Zobj.
  - assert (Ztconns = parks Ztr) as ->; [rewrite i_tconns0 by done; by rewrite Hto|].
    destruct (parks Ztr) as [|k] eqn:Hk; [exfalso; apply (parked_parks Ztr); [tauto|done]|].
    rewrite bool_decide_eq_true_2 in i_aw0 by done. subst Zaw.
    unfold next_slot, timeout_slot, gen_resume, gen_result, dequeue, to_consumer; cbn. (split; [|done]); crush.
    + intros _. rewrite bool_decide_eq_true_2; [done|]. rewrite Hk. done.
    + destruct i_mail0 as (r & -> & Hr). by exists r.
    + intros _ _. rewrite Hto, Hk. done.
    + right. rewrite Hk. lia.
    + apply always_ev; [by apply always_ev|]; cbn. split; [rewrite got_cons, delivered_cons, i_q0, !(right_id_L [] (++)); done|].
      right. right. exists n, w, u. split; [done|]. split; [by rewrite Htr|]. split; [done|]. lia.
  - destruct (i_tobj0 eq_refl) as [-> ->]. unfold next_slot; cbn.  (split; [|done]); crush.
    by apply always_ev.
Qed.

Lemma step_next to obj s s' : linv to obj s -> perform ANext s = Some s' ->
  l_ub s' = true ∧ l_tr s' = TUB UDone :: l_tr s ∧ l_fire s ≠ 0 ∧ (l_con s = CAway ∨ l_con s = CFin).
Proof.
  intros H Hp. destruct H. unfold perform in Hp. destruct (l_ub s) eqn:Hu; [done|].
  opened s. cbn in *. destruct Zfire as [|k]; [by destruct Zcon|]. destruct (i_fire0 ltac:(done)) as [-> Hn].
  destruct Zcon; try done; injection Hp as <-; unfold next_slot, timeout_slot, gen_resume; cbn; repeat split; auto.
Qed.

Lemma calm_tail (t2 t1 : list (lev V)) : calm (t2 ++ t1) -> calm t1.
Proof. intros H t3 e t4 ->. apply (H (t2 ++ t3) e t4). by rewrite <- (assoc_L (++)). Qed.
Lemma always_tail (P : lev V -> list (lev V) -> Prop) (t2 t1 : list (lev V)) : always P (t2 ++ t1) -> always P t1.
Proof. intros H t3 e t4 ->. apply (H (t2 ++ t3) e t4). by rewrite <- (assoc_L (++)). Qed.

(** Traces only grow; deliveries are due to the event loop. *)
Definition grows (base : list (lev V)) s' : Prop :=
  ∃ t, l_tr s' = t ++ base ∧ ∀ e, e ∈ t -> match e with TDeliver _ => False | _ => True end.
Lemma ext_refl s : grows (l_tr s) s.
Proof. exists []. split; [done|]. by intros ? ?%elem_of_nil. Qed.
Lemma ext_log e b s' : match e with TDeliver _ => False | _ => True end -> grows b s' -> grows b (log e s').
Proof.
  intros He [t [Ht H]]. exists (e :: t). cbn. rewrite Ht. split; [done|]. intros e' [->|H']%elem_of_cons; [done|by apply H].
Qed.
Lemma ext_bad u b s' : grows b s' -> grows b (bad u s').
Proof.
  intros [t [Ht H]]. exists (TUB u :: t). cbn. rewrite Ht. split; [done|]. intros e' [->|H']%elem_of_cons; [done|by apply H].
Qed.
Lemma ext_consumer o b s' : grows b s' -> grows b (to_consumer o s').
Proof. intros H. unfold to_consumer. destruct (l_con s'), o; first [by apply ext_bad|by apply ext_log]. Qed.
Lemma ext_result b s' : grows b s' -> grows b (gen_result s').
Proof. intros H. unfold gen_result, dequeue. destruct (l_queue s'); by apply ext_consumer. Qed.
Lemma ext_resume b s' : grows b s' -> grows b (gen_resume s').
Proof.
  intros H. assert (grows b (gen_loop s')).
  { unfold gen_loop. destruct (queue_ready s'); [by apply ext_result|]. apply ext_log; [done|]. unfold handle_timeout. by destruct (l_to s'). }
  unfold gen_resume. destruct (l_gen s'); try done; [by apply ext_result|by apply ext_bad].
Qed.
Definition base (a : act V) s : list (lev V) :=
  match a with ADeliver => match l_mail s with v :: _ => TDeliver v :: l_tr s | [] => l_tr s end | _ => l_tr s end.
Lemma ext_perform a s s' : perform a s = Some s' -> grows (base a s) s'.
Proof.
  pose proof (ext_refl s) as H0.
  intros Hp. unfold perform in Hp. destruct (l_ub s); [done|]. destruct a; cbn in Hp; cbn.
  - destruct (_ && _); [|done]. injection Hp as <-. apply ext_log; [done|]. by destruct (l_conn s).
  - destruct (_ && _); [|done]. injection Hp as <-. by apply ext_log.
  - destruct (_ && _); [|done]. injection Hp as <-. by apply ext_log.
  - destruct (idle s); [|done]. destruct (l_mail s) as [|v m]; [done|]. injection Hp as <-. unfold queue_slot.
    assert (grows (TDeliver v :: l_tr s) (log (TDeliver v) s)) as H1 by (apply (ext_refl (log (TDeliver v) s))).
    cbn. destruct (l_to s); cbn; (destruct (l_aw s); [apply ext_resume|]; apply H1).
  - destruct (idle s); [|done]. destruct (match l_timer s with Some d => _ | None => _ end); [|done]. injection Hp as <-. by apply ext_log.
  - destruct (idle s); [|done]. destruct (l_timer s); [|done]. destruct (_ <=? _); [|done]. injection Hp as <-.
    assert (grows (l_tr s) (log TFire s)) as H1 by (by apply ext_log).
    unfold next_slot. cbn. destruct (l_tconns s); [apply H1|]. apply ext_resume. apply H1.
  - assert (s' = next_slot s) as -> by (destruct (l_con s), (l_fire s); naive_solver).
    unfold next_slot. destruct (l_fire s); [done|]. by apply ext_resume.
  - destruct (idle s); [|done]. destruct (l_out s); [done|]. destruct (l_con s); injection Hp as <-; first [by apply ext_log|by apply ext_bad].
  - destruct (runs s); [|done]. destruct (l_alive s); [|injection Hp as <-; by apply ext_bad].
    assert (grows (l_tr s) (gen_resume (log TAsk (set_con CAsked s)))) by (apply ext_resume; by apply ext_log).
    destruct (l_gen s); injection Hp as <-; try done. by apply ext_bad.
  - destruct (runs s); [|done]. injection Hp as <-. by apply ext_log.
  - destruct (runs s); [|done]. injection Hp as <-. by apply ext_log.
Qed.
Lemma perform_tail a s s' : perform a s = Some s' -> ∃ t, l_tr s' = t ++ l_tr s.
Proof.
  intros [t [-> _]]%ext_perform. unfold base. destruct a; try by exists t. destruct (l_mail s); [by exists t|].
  eexists (t ++ [_]). rewrite <- (assoc_L (++)). done.
Qed.
Lemma calm_app (t2 t1 : list (lev V)) : calm t1 -> (∀ e, e ∈ t2 -> match e with TDeliver _ => False | _ => True end) -> calm (t2 ++ t1).
Proof.
  intros H1 H2. induction t2 as [|e t2 IH]; [done|]. cbn. rewrite calm_cons. split.
  - specialize (H2 e (elem_of_list_here _ _)). by destruct e.
  - apply IH. intros e' He. apply H2. by right.
Qed.

(** What undefined behaviour there can be in a calm history. *)
Definition ub_calm s (u : lub) : Prop :=
  match u with
  | UPastEnd => l_con s = CRun ∧ (l_alive s = false ∨ l_gen s = GEnd)
  | UDone => l_fire s ≠ 0 ∧ (l_con s = CAway ∨ l_con s = CFin)
  | UDeadConsumer => False
  end.

Lemma linv_step to obj a s s' : linv to obj s -> perform a s = Some s' -> calm (l_tr s') ->
  (linv to obj s' ∧ l_ub s' = false) ∨ (l_ub s' = true ∧ ∃ u, l_tr s' = TUB u :: l_tr s ∧ ub_calm s u).
Proof.
  intros H Hp Hc. destruct a.
  - left. by eapply step_emit.
  - left. by eapply step_kill.
  - left. by eapply step_drop.
  - left. by eapply step_deliver.
  - left. by eapply step_tick.
  - left. by eapply step_fire.
  - right. destruct (step_next _ _ _ _ H Hp) as (? & ? & ? & ?). split; [done|]. exists UDone. done.
  - left. by eapply step_wake.
  - destruct (step_ask _ _ _ _ H Hp) as [?|(? & ? & ?)]; [by left|]. right. split; [done|]. exists UPastEnd. split; [done|].
    split; [|done]. unfold perform in Hp. destruct (l_ub s); [done|]. unfold runs in Hp. by destruct (l_con s).
  - left. by eapply step_leave.
  - left. by eapply step_finish.
Qed.

Lemma reach_calm to obj s : lreach to obj s -> calm (l_tr s) ->
  (linv to obj s ∧ l_ub s = false) ∨
  (l_ub s = true ∧ ∃ s0 u, lreach to obj s0 ∧ linv to obj s0 ∧ l_ub s0 = false ∧ l_tr s = TUB u :: l_tr s0 ∧ ub_calm s0 u).
Proof.
  induction 1 as [|s s' a Hr IH Hp]; intros Hc.
  - left. split; [apply linv_init|done].
  - destruct (perform_tail _ _ _ Hp) as [t Ht]. assert (calm (l_tr s)) as Hc' by (eapply calm_tail; rewrite <- Ht; done).
    destruct (IH Hc') as [[Hi Hu]|[Hu _]]; [|unfold perform in Hp; by rewrite Hu in Hp].
    destruct (linv_step _ _ _ _ _ Hi Hp Hc) as [?|(? & u & ? & ?)]; [by left|]. right. split; [done|]. by exists s, u.
Qed.

(** The trace facts hold in all calm histories. *)
Lemma reach_trace to obj s : lreach to obj s -> calm (l_tr s) -> always (ev_ok to obj) (l_tr s).
Proof.
  intros Hr Hc. destruct (reach_calm _ _ _ Hr Hc) as [[Hi _]|(_ & s0 & u & _ & Hi & _ & -> & _)]; [apply Hi|].
  apply always_ev; [apply Hi|done].
Qed.

(** A plain consumer's histories are calm, and the listener is never resumed when finished. *)
Lemma plain_calm to obj s : lreach to obj s -> plain (l_tr s) ->
  calm (l_tr s) ∧ (l_ub s = true -> ∃ tr, l_tr s = TUB UPastEnd :: tr).
Proof.
  induction 1 as [|s s' a Hr IH Hp]; intros Hc.
  - split; [apply always_nil|done].
  - destruct (perform_tail _ _ _ Hp) as [t Ht]. assert (plain (l_tr s)) as Hc' by (eapply always_tail; rewrite <- Ht; done).
    destruct (IH Hc') as [Hq _].
    assert (l_ub s = false) as Hu by (unfold perform in Hp; by destruct (l_ub s)).
    destruct (reach_calm _ _ _ Hr Hq) as [[Hi _]|[Hu' _]]; [|congruence].
    assert (l_con s ≠ CAway) as Hna.
    { intros He. apply (i_away _ _ _ Hi) in He. revert Hc' He. clear. unfold plain. induction (l_tr s) as [|e tr IH]; [done|].
      rewrite always_cons. intros [H1 H2]. destruct e; cbn; try done; auto. }
    assert (l_con s = CFin -> l_alive s = false) as Hnf.
    { intros He. apply (i_alive _ _ _ Hi). pose proof (i_fin _ _ _ Hi He) as [t2 [t1 He2]]%elem_of_list_split.
      pose proof (Hc' t2 TFin t1 He2) as Hd. rewrite He2. apply elem_of_app. right. by right. }
    assert (calm (l_tr s')) as Hq'.
    { destruct (ext_perform _ _ _ Hp) as (t' & -> & Hd). apply calm_app; [|done]. unfold base. destruct a; try done.
      unfold perform in Hp. rewrite Hu in Hp. destruct (idle s) eqn:E1; [|done]. destruct (l_mail s) as [|v m] eqn:Em; [done|].
      apply calm_cons. split; [|done]. left. apply (i_park _ _ _ Hi).
      unfold idle in E1. destruct (l_con s) eqn:Ec; try done. exfalso. destruct (i_dead _ _ _ Hi (Hnf eq_refl)) as [Hx _]. congruence. }
    split; [done|]. intros Hu'. destruct (linv_step _ _ _ _ _ Hi Hp Hq') as [[_ ?]|(_ & u & He & Hub)]; [congruence|].
    exists (l_tr s). rewrite He. destruct u; try done. exfalso. destruct Hub as [Hf [?|Hf']]; [done|].
    by destruct (i_dead _ _ _ Hi (Hnf Hf')) as (_ & _ & _ & _ & ? & _).
Qed.

(** Undefined behaviour ends the history. *)
Definition tub s : Prop := ∀ u, TUB u ∈ l_tr s -> l_ub s = true.
Lemma tub_log e s : match e with TUB _ => False | _ => True end -> tub s -> tub (log e s).
Proof. intros He H u [<-|Hin]%elem_of_cons; [done|]. by apply (H u). Qed.
Lemma tub_bad u s : tub (bad u s).
Proof. by intros ? _. Qed.
Lemma tub_consumer o s : tub s -> tub (to_consumer o s).
Proof. intros H. unfold to_consumer. destruct (l_con s), o; first [apply tub_bad|by apply tub_log]. Qed.
Lemma tub_result s : tub s -> tub (gen_result s).
Proof. intros H. unfold gen_result, dequeue. destruct (l_queue s); by apply tub_consumer. Qed.
Lemma tub_resume s : tub s -> tub (gen_resume s).
Proof.
  intros H. assert (tub (gen_loop s)).
  { unfold gen_loop. destruct (queue_ready s); [by apply tub_result|]. apply tub_log; [done|]. unfold handle_timeout. by destruct (l_to s). }
  unfold gen_resume. destruct (l_gen s); first [done|by apply tub_result|apply tub_bad].
Qed.
Lemma tub_perform a s s' : tub s -> perform a s = Some s' -> tub s'.
Proof.
  intros H0 Hp. unfold perform in Hp. destruct (l_ub s) eqn:Hu; [done|]. destruct a; cbn in Hp; cbn.
  - destruct (_ && _); [|done]. injection Hp as <-. apply tub_log; [done|]. by destruct (l_conn s).
  - destruct (_ && _); [|done]. injection Hp as <-. apply tub_log; [done|]. intros u Hin. cbn in *. by rewrite (H0 u Hin) in Hu.
  - destruct (_ && _); [|done]. injection Hp as <-. apply tub_log; [done|]. intros u Hin. cbn in *. by rewrite (H0 u Hin) in Hu.
  - destruct (idle s); [|done]. destruct (l_mail s) as [|v m]; [done|]. injection Hp as <-. unfold queue_slot.
    assert (tub (log (TDeliver v) s)) as H1 by (by apply tub_log).
    cbn. destruct (l_to s); cbn; (destruct (l_aw s); [apply tub_resume|]; apply H1).
  - destruct (idle s); [|done]. destruct (match l_timer s with Some d => _ | None => _ end); [|done]. injection Hp as <-. by apply tub_log.
  - destruct (idle s); [|done]. destruct (l_timer s); [|done]. destruct (_ <=? _); [|done]. injection Hp as <-.
    assert (tub (log TFire s)) as H1 by (by apply tub_log).
    unfold next_slot. cbn. destruct (l_tconns s); [apply H1|]. apply tub_resume. apply H1.
  - assert (s' = next_slot s) as -> by (destruct (l_con s), (l_fire s); naive_solver).
    unfold next_slot. destruct (l_fire s); [done|]. by apply tub_resume.
  - destruct (idle s); [|done]. destruct (l_out s); [done|]. destruct (l_con s); injection Hp as <-; first [by apply tub_log|apply tub_bad].
  - destruct (runs s); [|done]. destruct (l_alive s); [|injection Hp as <-; apply tub_bad].
    assert (tub (gen_resume (log TAsk (set_con CAsked s)))) by (apply tub_resume; by apply tub_log).
    destruct (l_gen s); injection Hp as <-; first [done|apply tub_bad].
  - destruct (runs s); [|done]. injection Hp as <-. by apply tub_log.
  - destruct (runs s); [|done]. injection Hp as <-. by apply tub_log.
Qed.
Lemma reach_tub to obj s : lreach to obj s -> tub s.
Proof. induction 1 as [|s s' a Hr IH Hp]; [by intros ? ?%elem_of_nil|]. by eapply tub_perform. Qed.

Lemma silent_split (w w' u u' : list (lev V)) : silent w -> silent w' -> w ++ TPark :: u = w' ++ TPark :: u' -> w = w' ∧ u = u'.
Proof.
  revert w'. induction w as [|e w IH]; intros [|e' w'] Hs Hs' He; cbn in He; simplify_eq.
  - done.
  - by apply silent_cons in Hs' as [[] _].
  - by apply silent_cons in Hs as [[] _].
  - apply silent_cons in Hs as [_ Hs]. apply silent_cons in Hs' as [_ Hs']. by destruct (IH _ Hs Hs' H0) as [-> ->].
Qed.

End facts.
