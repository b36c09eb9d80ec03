(** * Properties of the QWebSocket frame and message generators: C121.

    What follows a report that was delivered while the user, having waited for the generator before, is suspended in another co_await (C77). The
    model is WsModel.v, the vocabulary WsSpec.v. *)
From stdpp Require Import list option.
From Verif Require Import ListenModel ListenSpec ListenFacts WsModel WsSpec WsFacts PropsWs.

Section props.
Context {F : Type}.
Implicit Types s : wst F.

(** Time passes, frames arrive and the state changes, but nothing is delivered and the user does nothing. *)
Inductive meanwhile : wst F -> wst F -> Prop :=
  | meanwhile_0 s : meanwhile s s
  | meanwhile_frame s s1 s2 f : meanwhile s s1 -> wperform (XFrame f) s1 = Some s2 -> meanwhile s s2
  | meanwhile_state s s1 s2 c : meanwhile s s1 -> wperform (XState c) s1 = Some s2 -> meanwhile s s2
  | meanwhile_tick s s1 s2 : meanwhile s s1 -> wperform XTick s1 = Some s2 -> meanwhile s s2.

(** The user is suspended elsewhere, the watcher generator has swallowed a report and waits for the next. *)
Record swallowed s : Prop := {
  sw_ub : w_ub s = false;
  sw_alive : w_alive s = true;
  sw_user : w_user s = CAway;
  sw_pos : w_pos s = WInner;
  sw_in : match w_in s with
          | Some l => l_alive l = true ∧ l_ub l = false ∧ l_con l = CAsked ∧ l_gen l = GWait ∧ l_aw l = true ∧ l_queue l = [] ∧ l_obj l = true ∧ l_fire l = 0 ∧
              (l_timer l ≠ None -> l_tconns l ≠ 0)
          | None => False end }.

Lemma swallow to s s' :
  wreach to s -> wcalm (w_tr s) -> waway (w_tr s) = true -> wparks (w_tr s) ≠ 0 -> YEnd ∉ w_tr s -> YDropped ∉ w_tr s ->
  wperform XDeliver s = Some s' -> swallowed s'.
Proof.
  intros Hr Hc Haw Hpk He Hd Hp. unfold wperform in Hp. destruct (w_ub s) eqn:Hu; [done|].
  destruct (wreach_inv _ _ Hr Hc) as [[[] _]|[? _]]; [|congruence]. apply j_away in Haw.
  assert (w_alive s = true) as Ha by (destruct (w_alive s); [done|by destruct Hd; apply j_alive]).
  unfold widle, wruns in Hp. rewrite Haw in Hp. cbn in Hp. destruct (w_in s) as [l|] eqn:Ei; [|done]. destruct j_in as (_ & [] & Hq).
  destruct (perform ADeliver l) as [l'|] eqn:Epe; [|done]. injection Hp as <-.
  destruct (w_pos s) as [| |f|] eqn:Epos; [done|by destruct Hq as (_ & ? & _); congruence| |done]. destruct Hq as [Hca _].
  assert (∃ v, l_con l' = CRun ∧ l_gen l' = GYield v ∧ l_queue l' = [] ∧ l_obj l' = true ∧ l_ub l' = false ∧ l_alive l' = true ∧ l_fire l' = 0 ∧ l_aw l' = true ∧
     (l_to l' = None -> l_timer l' = None)) as (v & Hc' & Hgen & Hqe & Hob & Hub & Hal & Hf & Haw' & Htm).
  { pose proof (g_inv _ _ k_good) as Hi. pose proof (good_alive _ _ k_good) as Hla.
    unfold perform in Epe. rewrite (g_ub _ _ k_good) in Epe. destruct (idle l) eqn:Eid; [|done]. destruct (l_mail l) as [|v m]; [done|].
    injection Epe as <-. exists v. pose proof (i_aw _ _ _ Hi Hla) as Hla'. rewrite k_park in Hla'. rewrite bool_decide_eq_true_2 in Hla' by done.
    pose proof (i_qe _ _ _ Hi) as Hqe. rewrite k_park in Hqe. specialize (Hqe Hpk).
    assert (l_gen l ≠ GWait) as Hgw. { intros Hg. apply (i_wait _ _ _ Hi Hla) in Hg. congruence. }
    pose proof (good_gen _ _ k_good) as Hge. pose proof (i_init _ _ _ Hi) as Hin. rewrite k_park in Hin.
    pose proof (good_obj _ _ k_good) as Hob. pose proof (g_ub _ _ k_good) as Hubl.
    assert (l_timer l = None) as Htn. { destruct (l_timer l) as [d|] eqn:Et; [|done]. by destruct (i_timer _ _ _ Hi _ Et). }
    assert (l_fire l = 0) as Hf. { unfold idle in Eid. rewrite Hca in Eid. by destruct (l_fire l). }
    unfold queue_slot, gen_resume, gen_loop, gen_result, dequeue, to_consumer, queue_ready. cbn.
    destruct (l_gen l) eqn:Eg; try done; [by destruct Hpk; apply Hin|].
    destruct (l_to l) eqn:Eto; cbn; rewrite Hla', Hqe; cbn; rewrite Eg, Hob; cbn; rewrite Hca; cbn; split_and!; try done. }
  assert (∃ l'', perform AAsk l' = Some l'' ∧ l_alive l'' = true ∧ l_ub l'' = false ∧ l_con l'' = CAsked ∧ l_gen l'' = GWait ∧ l_aw l'' = true ∧ l_queue l'' = [] ∧ l_obj l'' = true ∧
      l_fire l'' = 0 ∧ (l_timer l'' ≠ None -> l_tconns l'' ≠ 0)) as (l'' & Hask & Hl'').
  { unfold perform, runs. rewrite Hub, Hc', Hal. cbn. unfold gen_resume. cbn. rewrite Hgen. cbn. unfold gen_loop, queue_ready. cbn. rewrite Hqe, Hob. cbn.
    eexists. split; [done|]. unfold handle_timeout. cbn. destruct (l_to l') eqn:Eto; cbn; rewrite ?Hob; split_and!; try done.
    by rewrite Htm. }
  unfold w_back, runs. rewrite Hc', Hca. unfold w_next. rewrite Hask. unfold runs. destruct Hl'' as (Hl0 & Hl1 & Hca'' & Hl2). rewrite Hca''. cbn. rewrite Haw. cbn.
  by split.
Qed.

Lemma swallowed_log e s : swallowed s -> swallowed (wlog e s).
Proof. by intros []; split. Qed.
Lemma swallowed_ready o s : swallowed s -> swallowed (w_ready o s).
Proof.
  intros [Hu Ha Haw Hpos Hin]. unfold w_ready. destruct (w_in s) as [l|] eqn:Ei; [|done]. destruct Hin as (H0 & H1 & H2 & H3 & H4 & H5 & H6 & H7 & H8).
  unfold perform, runs, idle. rewrite H1, H2, H7, H6. cbn. split; try done. cbn. by destruct (l_conn l).
Qed.
Lemma swallowed_meanwhile s s' : meanwhile s s' -> swallowed s -> swallowed s'.
Proof.
  induction 1 as [s|s s1 s2 f _ IH Hp|s s1 s2 c _ IH Hp|s s1 s2 _ IH Hp]; intros Hs; [done|..]; specialize (IH Hs); pose proof IH as [Hu Ha Haw Hpos Hin];
    unfold wperform, widle, wruns in Hp; rewrite Hu, ?Haw in Hp; cbn in Hp.
  - injection Hp as <-. by apply swallowed_log, swallowed_ready.
  - injection Hp as <-. apply swallowed_log. destruct c; [done|by apply swallowed_ready].
  - destruct (w_in s1) as [l|] eqn:Ei; [|done]. destruct Hin as (H0 & H1 & H2 & H3 & H4 & H5 & H6 & H7 & H8).
    destruct (perform ATick l) as [l'|] eqn:Et; [|done]. injection Hp as <-. unfold perform in Et. rewrite H1 in Et. destruct (idle l); [|done].
    destruct (match l_timer l with Some d => _ | None => _ end); [|done]. injection Et as <-. by split.
Qed.

Lemma ask_again (l : lst (option F)) v : l_con l = CRun -> l_gen l = GYield v -> l_ub l = false -> l_queue l = [] -> l_obj l = true -> l_fire l = 0 -> l_alive l = true ->
  ∃ l1 l2 l3, perform ALeave l = Some l1 ∧ perform AWake l1 = Some l2 ∧ perform AAsk l2 = Some l3 ∧ l_con l3 = CAsked.
Proof.
  destruct l as [to now obj conn mail q aw timer tc gen al con out fire ub tr]; cbn. intros -> -> -> -> -> -> ->.
  eexists _, _, _. split; [reflexivity|]. split; [reflexivity|]. split; [reflexivity|]. by destruct to.
Qed.
Lemma deliver_got (l l' : lst (option F)) : l_alive l = true -> l_ub l = false -> l_con l = CAsked -> l_gen l = GWait -> l_aw l = true -> l_queue l = [] -> l_obj l = true -> l_fire l = 0 ->
  perform ADeliver l = Some l' ->
  ∃ o, l_con l' = CRun ∧ l_gen l' = GYield o ∧ l_ub l' = false ∧ l_queue l' = [] ∧ l_obj l' = true ∧ l_fire l' = 0 ∧ l_alive l' = true.
Proof.
  destruct l as [to now obj conn mail q aw timer tc gen al con out fire ub tr]; cbn. intros -> -> -> -> -> -> -> ->.
  destruct mail as [|o m]; [done|]. intros [= <-]. exists o. by destruct to.
Qed.
Lemma swallowed_deliver s s' : swallowed s -> wperform XDeliver s = Some s' ->
  w_tr s' = YEarly :: YDeliver :: w_tr s ∧
  ∀ s2, wperform XAsk s' = Some s2 -> w_tr s2 = YPark :: YAsk :: w_tr s' ∨ w_tr s2 = YUB WPastEnd :: w_tr s'.
Proof.
  intros [Hu Ha Haw Hpos Hin] Hp. unfold wperform, widle, wruns in Hp. rewrite Hu, Haw in Hp. cbn in Hp.
  destruct (w_in s) as [l|] eqn:Ei; [|done]. destruct Hin as (H0 & H1 & H2 & H3 & H4 & H5 & H6 & H7 & H8).
  destruct (perform ADeliver l) as [l'|] eqn:Ed; [|done]. injection Hp as <-.
  destruct (deliver_got l l' H0 H1 H2 H3 H4 H5 H6 H7 Ed) as (o & Hc & Hg & Hub & Hq & Hob & Hf & Hal).
  destruct (ask_again l' o Hc Hg Hub Hq Hob Hf Hal) as (l1 & l2 & l3 & E1 & E2 & E3 & Hl3).
  unfold w_back, runs. rewrite Hc, H2. unfold w_got. rewrite Hg. destruct o as [f|]; unfold to_user; cbn [w_user wlog wset_user wset_pos wset_in]; rewrite Haw; (split; [done|]); intros s2 H.
  - left. unfold wperform in H. cbn [w_ub w_user wruns w_alive w_pos w_in wlog wset_user wset_pos wset_in] in H. rewrite Hu, Ha in H. injection H as <-.
    unfold w_resume. cbn [w_pos w_in wlog wset_user wset_pos wset_in]. rewrite E1, E2. unfold w_next. rewrite E3. unfold runs. rewrite Hl3. reflexivity.
  - right. unfold wperform in H. cbn in H. rewrite Hu, Ha in H. by injection H as <-.
Qed.
Lemma swallowed_fire s s' : swallowed s -> wperform XFire s = Some s' ->
  w_tr s' = YEarly :: YFire :: w_tr s ∧ ∀ s2, wperform XAsk s' = Some s2 -> w_tr s2 = YUB WPastEnd :: w_tr s'.
Proof.
  intros [Hu Ha Haw Hpos Hin] Hp. unfold wperform, widle, wruns in Hp. rewrite Hu, Haw in Hp. cbn in Hp.
  destruct (w_in s) as [l|] eqn:Ei; [|done]. destruct Hin as (H0 & H1 & H2 & H3 & H4 & H5 & H6 & H7 & H8).
  destruct (perform AFire l) as [l'|] eqn:Ed; [|done]. injection Hp as <-.
  unfold perform, idle in Ed. rewrite H1, H2, H7 in Ed. destruct (l_timer l) as [d|]; [|done]. destruct (d <=? l_now l); [|done].
  specialize (H8 ltac:(done)).
  assert (l_con l' = CRun ∧ l_gen l' = GEnd) as [Hc Hg].
  { injection Ed as <-. unfold next_slot. cbn. destruct (l_tconns l) as [|n]; [done|]. cbn. unfold timeout_slot, gen_resume. cbn. rewrite H3.
    unfold gen_result, dequeue. cbn. rewrite H5. unfold to_consumer. cbn. by rewrite H2. }
  unfold w_back, runs. rewrite Hc, H2. unfold w_got. rewrite Hg. unfold to_user; cbn; rewrite Haw. split; [done|].
  intros s2 H. unfold wperform in H. cbn in H. rewrite Hu, Ha in H. by injection H as <-.
Qed.

(** ** C121 *)

(** Violated: the user's other co_awaits only return when what they wait for is done. After a report was swallowed as in C77 and while the user
    is still suspended there, the next report, or the generator's timeout, resumes the user in that other co_await although it is not
    done, and this report is lost too: if it was a frame, a following co_await ++it waits for a further report; if it was the end, ++it is undefined
    behaviour. *)
Theorem C121_other_await_cut_short_refuted to s s1 s2 :
  wreach to s -> wcalm (w_tr s) -> waway (w_tr s) = true -> wparks (w_tr s) ≠ 0 -> YEnd ∉ w_tr s -> YDropped ∉ w_tr s ->
  wperform XDeliver s = Some s1 -> meanwhile s1 s2 ->
  (∀ s3, wperform XDeliver s2 = Some s3 -> w_tr s3 = YEarly :: YDeliver :: w_tr s2 ∧
     ∀ s4, wperform XAsk s3 = Some s4 -> w_tr s4 = YPark :: YAsk :: w_tr s3 ∨ w_tr s4 = YUB WPastEnd :: w_tr s3) ∧
  (∀ s3, wperform XFire s2 = Some s3 -> w_tr s3 = YEarly :: YFire :: w_tr s2 ∧
     ∀ s4, wperform XAsk s3 = Some s4 -> w_tr s4 = YUB WPastEnd :: w_tr s3).
Proof.
  intros Hr Hc Haw Hpk He Hd Hp Hm. pose proof (swallow _ _ _ Hr Hc Haw Hpk He Hd Hp) as Hs. apply (swallowed_meanwhile _ _ Hm) in Hs.
  split; intros s3 H3; [by apply swallowed_deliver|by apply swallowed_fire].
Qed.
End props.
Print Assumptions C121_other_await_cut_short_refuted.

(** The user handles frame 1 by something asynchronous while 2 and 3 arrive: 2 is swallowed, 3 cuts the other co_await short, and a further ++it waits
    for a fourth frame. *)
Definition runw121 : wst nat := xplay [XAsk; XFrame 1; XDeliver; XLeave; XFrame 2; XFrame 3] (frames (Some 5)).
Example exw121 : wreach (Some 5) runw121 ∧ wcalm (w_tr runw121) ∧ waway (w_tr runw121) = true ∧ wparks (w_tr runw121) = 1 ∧
  w_tr (xplay [XDeliver; XTick; XDeliver; XAsk] runw121) =
    [YPark; YAsk; YEarly; YDeliver; YTick; YDeliver; YFrame 3; YFrame 2; YLeave; YGot 1; YDeliver; YFrame 1; YPark; YAsk] ∧
  meanwhile (xplay [XDeliver] runw121) (xplay [XDeliver; XTick] runw121).
Proof.
  split; [apply xplay_reach, wreach_0|]. split; [by apply wcalmb_ok|]. split_and!; try (vm_compute; reflexivity).
  eapply meanwhile_tick; [apply meanwhile_0|]. vm_compute. reflexivity.
Qed.
(** The timeout, and the change of state. *)
Example exw121_timeout : w_tr (xplay [XDeliver; XTick; XTick; XTick; XTick; XTick; XFire; XAsk] (xplay [XAsk; XFrame 1; XDeliver; XLeave; XFrame 2] (frames (Some 5)))) =
  [YUB WPastEnd; YEarly; YFire; YTick; YTick; YTick; YTick; YTick; YDeliver; YFrame 2; YLeave; YGot 1; YDeliver; YFrame 1; YPark; YAsk].
Proof. vm_compute. reflexivity. Qed.
Example exw121_state : w_tr (xplay [XDeliver; XState false; XDeliver; XAsk] (xplay [XAsk; XFrame 1; XDeliver; XLeave; XFrame 2] (frames None))) =
  [YUB WPastEnd; YEarly; YDeliver; YState false; YDeliver; YFrame 2; YLeave; YGot 1; YDeliver; YFrame 1; YPark; YAsk].
Proof. vm_compute. reflexivity. Qed.
