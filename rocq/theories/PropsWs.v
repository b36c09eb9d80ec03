(** * Properties of the QWebSocket frame and message generators: C58 (second half), C77, C78.

    The model is WsModel.v, the vocabulary WsSpec.v. A history is any sequence of frames, state changes, event loop
    activity and actions of the user's coroutine. *)
From stdpp Require Import list option.
From Verif Require Import ListenModel ListenSpec ListenFacts WsModel WsSpec WsFacts.

Section props.
Context {F : Type}.
Implicit Types s : wst F.

(** ** C58 *)

(** As long as nothing is delivered while the user, having waited for the generator before, is suspended elsewhere: the user gets the frames
    received since begin(), each once, in order, up to the first change of state; no other co_await of the user
    is disturbed; the only misuse that leads to undefined behaviour is to advance past the end or a destroyed generator. *)
Theorem C58_frames_in_order to s : wreach to s -> wcalm (w_tr s) ->
  Some <$> yields (w_tr s) `prefix_of` stream (w_tr s) ∧ YEarly ∉ w_tr s ∧
  ∀ u, YUB u ∈ w_tr s -> u = WPastEnd ∧ (YDropped ∈ w_tr s ∨ YEnd ∈ w_tr s).
Proof.
  intros Hr Hc. destruct (wreach_inv _ _ Hr Hc) as [[Hi Hu]|(Hu & t & Ht & Htr & Hpre & He)].
  - split; [apply Hi|]. split.
    + intros (t2 & t1 & Heq)%elem_of_list_split. destruct (j_tr _ _ Hi _ _ _ Heq).
    + intros u Hin. exfalso. clear -Hr Hu Hin. induction Hr as [|s s' a Hr IH Hp]; [by apply elem_of_nil in Hin|].
      assert (w_ub s = false) as Hus by (unfold wperform in Hp; by destruct (w_ub s)). specialize (IH Hus).
      exact (IH (no_new_ub _ _ _ _ Hp Hu Hin)).
  - assert (YEarly ∉ t) as Hne. { intros (t2 & t1 & Heq)%elem_of_list_split. destruct (Htr _ _ _ Heq). }
    assert (∀ u, YUB u ∈ t -> u = WPastEnd) as Hub. { intros u (t2 & t1 & Heq)%elem_of_list_split. apply (Htr _ _ _ Heq). }
    rewrite Ht. rewrite yields_cons, stream_cons, !(right_id_L [] (++)). split; [done|]. split; [by intros [?|?]%elem_of_cons|].
    intros u [Heq|Hin]%elem_of_cons; (split; [|destruct He; [left|right]; by right]); [by injection Heq as ->|by apply Hub].
Qed.

(** The generator ends exactly there: the next thing the socket reported is a change of state, or it has been quiet for the timeout. *)
Theorem C58_frames_end to s t2 t1 : wreach to s -> wcalm (w_tr s) -> w_tr s = t2 ++ YEnd :: t1 ->
  (∃ rest, stream t1 = (Some <$> yields t1) ++ None :: rest) ∨
  (∃ d w u, to = Some d ∧ t1 = YFire :: w ++ YPark :: u ∧ wsilent w ∧ wticks w = d).
Proof.
  intros Hr Hc He. destruct (wreach_inv _ _ Hr Hc) as [[Hi Hu]|(Hu & t & Ht & Htr & _)].
  - by apply (j_tr _ _ Hi) in He.
  - rewrite Ht in He. destruct t2 as [|e t2]; cbn in He; [done|]. injection He as <- ->. by apply (Htr t2 YEnd t1).
Qed.

(** While the user waits for the generator, it has got everything delivered so far, and the next thing the socket reported, once the event loop
    delivers it, is what it gets. *)
Theorem C58_frames_complete to s : wreach to s -> wcalm (w_tr s) -> w_ub s = false -> wparked (w_tr s) = true -> YDropped ∉ w_tr s ->
  Some <$> yields (w_tr s) = take (ndelivered (w_tr s)) (stream (w_tr s)) ∧
  ∀ o, stream (w_tr s) !! ndelivered (w_tr s) = Some o ->
  ∃ s', wperform XDeliver s = Some s' ∧ w_tr s' = match o with Some f => YGot f | None => YEnd end :: YDeliver :: w_tr s.
Proof.
  intros Hr Hc Hu Hp Hd. destruct (wreach_inv _ _ Hr Hc) as [[[] _]|[? _]]; [|congruence].
  apply j_park in Hp.
  assert (w_alive s = true) as Ha by (destruct (w_alive s); [done|by destruct Hd; apply j_alive]).
  destruct (w_in s) as [l|] eqn:Ei; [|by destruct (j_in Ha)]. destruct j_in as (_ & [] & Hq).
  assert (l_con l = CAsked) as Hca by (destruct (w_pos s); try done; destruct Hq as [? Hq2]; [done|congruence]).
  assert (got (l_tr l) = delivered (l_tr l)) as Hgd.
  { pose proof (good_alive _ _ k_good) as Hla. pose proof (g_inv _ _ k_good) as Hi.
    rewrite (i_q _ _ _ Hi Hla), (i_waitq _ _ _ Hi Hla), (right_id_L [] (++)); [done|]. by apply (i_wait _ _ _ Hi Hla). }
  destruct (i_mail _ _ _ (g_inv _ _ k_good)) as (r & Hm & _).
  split; [by rewrite <- k_got, <- k_emit, <- k_del, Hm, take_app|].
  intros o Ho. rewrite <- k_emit, <- k_del in Ho.
  assert (∃ q, emitted (l_tr l) = delivered (l_tr l) ++ o :: q) as [q Hq2].
  { rewrite Hm in Ho |- *. rewrite lookup_app_r in Ho by done. rewrite Nat.sub_diag in Ho. destruct (l_mail l ++ r) as [|x q]; [done|].
    injection Ho as ->. by exists q. }
  destruct (good_pending _ _ _ _ k_good Hca Hq2) as (l' & Hpe & Hc' & Hgen).
  unfold wperform. rewrite Hu. unfold widle, wruns. rewrite Hp, Ei, Hpe. cbn. eexists. split; [done|].
  unfold w_back, runs. rewrite Hc', Hca. unfold w_got. rewrite Hgen. destruct o as [f|]; unfold to_user; cbn; by rewrite Hp.
Qed.

(** With a timeout, the user does not wait for longer than that without anything happening. *)
Theorem C58_frames_in_time d s w u : wreach (Some d) s -> wcalm (w_tr s) -> w_ub s = false -> YDropped ∉ w_tr s ->
  w_tr s = w ++ YPark :: u -> wsilent w ->
  wticks w ≤ d ∧
  (wticks w = d -> wperform XTick s = None ∧ ∃ s', wperform XFire s = Some s' ∧ w_tr s' = YEnd :: YFire :: w_tr s).
Proof.
  intros Hr Hc Hu Hd Ht Hs. destruct (wreach_inv _ _ Hr Hc) as [[[] _]|[? _]]; [|congruence].
  assert (wparked (w_tr s) = true) as Hp.
  { rewrite Ht. clear -Hs. induction w as [|e w IH]; [done|]. apply wsilent_cons in Hs as [He Hs]. cbn. destruct e; try done; auto. }
  apply j_park in Hp. assert (w_alive s = true) as Ha by (destruct (w_alive s); [done|by destruct Hd; apply j_alive]).
  destruct (w_in s) as [l|] eqn:Ei; [|by destruct (j_in Ha)]. destruct j_in as (_ & [] & Hq).
  assert (l_con l = CAsked ∧ segs (l_tr l) (w_tr s)) as [Hca (w1 & u1 & w' & u' & Hl & Hs1 & Hw & Hs2 & Htk)].
  { destruct (w_pos s); try done; destruct Hq as [? Hq2]; [split; [done|apply Hq2]|congruence]. }
  rewrite Ht in Hw. destruct (wsilent_split _ _ _ _ Hs Hs2 Hw) as [<- <-].
  destruct (good_quiet _ _ _ _ _ k_good eq_refl Hca Hl Hs1) as (Hle & _ & Heq). rewrite Htk. split; [done|].
  intros Hd'. destruct (Heq Hd') as [[l' Hf] Hti]. unfold wperform. rewrite Hu. unfold widle, wruns. rewrite Hp, Ei, Hti, Hf. cbn. split; [done|].
  eexists. split; [done|]. destruct (good_timeout _ _ _ k_good Hf) as (_ & Hc' & Hg & _).
  unfold w_back, runs, w_got, to_user. rewrite Hc', Hca, Hg. cbn. by rewrite Hp.
Qed.

(** A user that awaits nothing but the generator is served like that in every history. *)
Theorem C58_frames_plain_user to s : wreach to s -> wplain (w_tr s) -> wcalm (w_tr s).
Proof. apply wplain_calm. Qed.

(** ** C77 *)

(** Violated: once the user had to wait for the generator, whatever the socket reports (a frame or the change of state) and is delivered
    while the user is suspended in another co_await is lost, and the next co_await ++it is undefined behaviour. *)
Theorem C77_report_lost_refuted to s s' :
  wreach to s -> wcalm (w_tr s) -> waway (w_tr s) = true -> wparks (w_tr s) ≠ 0 -> YEnd ∉ w_tr s -> YDropped ∉ w_tr s ->
  wperform XDeliver s = Some s' ->
  w_tr s' = YDeliver :: w_tr s ∧
  ∀ s2 s3, wperform XWake s' = Some s2 -> wperform XAsk s2 = Some s3 -> w_tr s3 = YUB WStale :: YAsk :: YBack :: w_tr s'.
Proof.
  intros Hr Hc Haw Hpk He Hd Hp. unfold wperform in Hp. destruct (w_ub s) eqn:Hu; [done|].
  destruct (wreach_inv _ _ Hr Hc) as [[[] _]|[? _]]; [|congruence]. apply j_away in Haw.
  assert (w_alive s = true) as Ha by (destruct (w_alive s); [done|by destruct Hd; apply j_alive]).
  unfold widle, wruns in Hp. rewrite Haw in Hp. cbn in Hp. destruct (w_in s) as [l|] eqn:Ei; [|done]. destruct j_in as (_ & [] & Hq).
  destruct (perform ADeliver l) as [l'|] eqn:Epe; [|done]. injection Hp as <-.
  destruct (w_pos s) as [| |f|] eqn:Epos; [done|by destruct Hq as (_ & ? & _); congruence| |done]. destruct Hq as [Hca _].
  assert (∃ v, l_con l' = CRun ∧ l_gen l' = GYield v ∧ l_queue l' = [] ∧ l_obj l' = true ∧ l_ub l' = false ∧ l_alive l' = true) as (v & Hc' & Hgen & Hqe & Hob & Hub & Hal).
  { pose proof (g_inv _ _ k_good) as Hi. pose proof (good_alive _ _ k_good) as Hla.
    unfold perform in Epe. rewrite (g_ub _ _ k_good) in Epe. destruct (idle l); [|done]. destruct (l_mail l) as [|v m]; [done|].
    injection Epe as <-. exists v. pose proof (i_aw _ _ _ Hi Hla) as Hla'. rewrite k_park in Hla'. rewrite bool_decide_eq_true_2 in Hla' by done.
    pose proof (i_qe _ _ _ Hi) as Hqe. rewrite k_park in Hqe. specialize (Hqe Hpk).
    assert (l_gen l ≠ GWait) as Hgw. { intros Hg. apply (i_wait _ _ _ Hi Hla) in Hg. congruence. }
    pose proof (good_gen _ _ k_good) as Hge. pose proof (i_init _ _ _ Hi) as Hin. rewrite k_park in Hin.
    pose proof (good_obj _ _ k_good) as Hob. pose proof (g_ub _ _ k_good) as Hubl.
    unfold queue_slot, gen_resume, gen_loop, gen_result, dequeue, to_consumer, queue_ready. cbn.
    destruct (l_gen l) eqn:Eg; try done; [by destruct Hpk; apply Hin|].
    destruct (l_to l); cbn; rewrite Hla', Hqe; cbn; rewrite Eg, Hob; cbn; rewrite Hca; cbn; done. }
  assert (∃ l'', perform AAsk l' = Some l'' ∧ l_con l'' = CAsked) as (l'' & Hask & Hca'').
  { unfold perform, runs. rewrite Hub, Hc', Hal. cbn. unfold gen_resume. cbn. rewrite Hgen. cbn. unfold gen_loop, queue_ready. cbn. rewrite Hqe, Hob. cbn.
    eexists. split; [done|]. unfold handle_timeout. cbn. by destruct (l_to l'). }
  unfold w_back, runs. rewrite Hc', Hca. unfold w_next. rewrite Hask. unfold runs. rewrite Hca''. cbn. rewrite Haw. cbn. split; [done|].
  intros s2 s3 H2 H3. unfold wperform in H2. cbn in H2. rewrite Hu, Haw in H2. injection H2 as <-.
  unfold wperform in H3. cbn in H3. rewrite Hu, Ha in H3. injection H3 as <-. done.
Qed.

(** ** C78 *)

(** Violated (documentation: the generator "will buffer all received frames for as long as the generator object exists"): frames that were
    only received before the user calls begin() are never yielded. *)
Theorem C78_early_frames_lost_refuted to s f : wreach to s -> wcalm (w_tr s) ->
  (∀ t2 t1, w_tr s = t2 ++ YFrame f :: t1 -> begun t1 = false) -> f ∉ yields (w_tr s).
Proof.
  intros Hr Hc Hf Hin. destruct (C58_frames_in_order _ _ Hr Hc) as [[q Hq] _].
  assert (Some f ∈ stream (w_tr s)) as Hs. { rewrite Hq. apply elem_of_app. left. by apply elem_of_list_fmap_1. }
  clear -Hs Hf. revert Hs Hf. generalize (w_tr s). intros tr. induction tr as [|e tr IH]; intros Hs Hf; [by apply elem_of_nil in Hs|].
  rewrite stream_cons in Hs. apply elem_of_app in Hs as [Hs|Hs].
  - apply IH; [done|]. intros t2 t1 ->. by apply (Hf (e :: t2)).
  - destruct e as [f'|[]| | | | | | | | | | | | |]; try (by apply elem_of_nil in Hs).
    + destruct (begun tr) eqn:Hb; [|by apply elem_of_nil in Hs]. apply elem_of_list_singleton in Hs as [= ->]. by rewrite (Hf [] tr) in Hb.
    + destruct (begun tr); [|by apply elem_of_nil in Hs]. by apply elem_of_list_singleton in Hs.
Qed.
End props.
Print Assumptions C58_frames_in_order.
Print Assumptions C58_frames_end.
Print Assumptions C58_frames_complete.
Print Assumptions C58_frames_in_time.
Print Assumptions C58_frames_plain_user.
Print Assumptions C77_report_lost_refuted.
Print Assumptions C78_early_frames_lost_refuted.

(** ** Concrete histories *)
Lemma xplay_reach {F} to l (s : wst F) : wreach to s -> wreach to (xplay l s).
Proof.
  revert s. induction l as [|a l IH]; intros s Hs; [done|]. cbn. destruct (wperform a s) eqn:E; [|done]. apply IH. by eapply wreach_S.
Qed.
Fixpoint wcalmb {F} (tr : list (wev F)) : bool :=
  match tr with [] => true | e :: tr =>
    match e with YDeliver => wparked tr || (match wparks tr with 0 => true | _ => false end) | _ => true end && wcalmb tr end.
Lemma wcalmb_ok {F} (tr : list (wev F)) : wcalmb tr = true -> wcalm tr.
Proof.
  induction tr as [|e tr IH]; intros H; [apply walways_nil|]. cbn in H. apply andb_prop in H as [H1 H2]. apply wcalm_cons. split; [|by apply IH].
  destruct e; try done. apply orb_prop in H1 as [?|H1]; [by left|]. right. by destruct (wparks tr).
Qed.
Fixpoint wplainb {F} (tr : list (wev F)) : bool :=
  match tr with [] => true | e :: tr =>
    match e with YLeave => false | YFin => existsb (λ e, match e with YDropped => true | _ => false end) tr
               | YDropped => negb (wparked tr) | _ => true end && wplainb tr end.
Lemma wplainb_ok {F} (tr : list (wev F)) : wplainb tr = true -> wplain tr.
Proof.
  induction tr as [|e tr IH]; intros H; [apply walways_nil|]. cbn in H. apply andb_prop in H as [H1 H2]. apply walways_cons. split; [|by apply IH].
  destruct e; try done; [by destruct (wparked tr)|]. apply existsb_exists in H1 as (x & Hx & H1). apply elem_of_list_In in Hx. by destruct x.
Qed.

(** Two frames arrive at once, then the connection is closed. *)
Definition runw1 : wst nat := xplay [XFrame 7; XAsk; XState true; XFrame 1; XFrame 2; XDeliver; XAsk; XDeliver; XAsk; XState false; XFrame 3; XDeliver; XDrop; XFinish] (frames None).
Example exw1 : wreach None runw1 ∧ wplain (w_tr runw1) ∧
  w_tr runw1 = [YFin; YDropped; YEnd; YDeliver; YFrame 3; YState false; YPark; YAsk; YGot 2; YDeliver; YPark; YAsk; YGot 1; YDeliver; YFrame 2; YFrame 1;
    YState true; YPark; YAsk; YFrame 7] ∧ yields (w_tr runw1) = [1; 2] ∧ stream (w_tr runw1) = [Some 1; Some 2; None; Some 3].
Proof. split; [apply xplay_reach, wreach_0|]. split; [by apply wplainb_ok|]. split; [|split]; vm_compute; reflexivity. Qed.
(** The timeout. *)
Definition runw2 : wst nat := xplay [XAsk; XTick; XTick; XFrame 1; XDeliver; XAsk; XTick; XState true; XTick; XTick] (frames (Some 3)).
Example exw2 : wreach (Some 3) runw2 ∧ wcalm (w_tr runw2) ∧ w_ub runw2 = false ∧
  ∃ w u, w_tr runw2 = w ++ YPark :: u ∧ wsilent w ∧ wticks w = 3 ∧ w_tr (xplay [XFire] runw2) = YEnd :: YFire :: w_tr runw2.
Proof.
  split; [apply xplay_reach, wreach_0|]. split; [by apply wcalmb_ok|]. split; [done|].
  exists [YTick; YTick; YState true; YTick]. eexists. split; [vm_compute; reflexivity|]. split; [|done].
  intros e He. rewrite !elem_of_cons, elem_of_nil in He. destruct He as [->|[->|[->|[->|[]]]]]; done.
Qed.
(** Hypotheses of C58_frames_complete. *)
Definition runw3 : wst nat := xplay [XAsk; XFrame 1; XFrame 2; XDeliver; XAsk] (frames None).
Example exw3 : wreach None runw3 ∧ wcalm (w_tr runw3) ∧ w_ub runw3 = false ∧ wparked (w_tr runw3) = true ∧
  stream (w_tr runw3) !! ndelivered (w_tr runw3) = Some (Some 2).
Proof. split; [apply xplay_reach, wreach_0|]. split; [by apply wcalmb_ok|]. split; [|split]; vm_compute; reflexivity. Qed.
(** C77: the user processes frame 1 asynchronously while frame 2 arrives. *)
Definition runw77 : wst nat := xplay [XAsk; XFrame 1; XDeliver; XLeave; XFrame 2] (frames None).
Example exw77 : wreach None runw77 ∧ wcalm (w_tr runw77) ∧ waway (w_tr runw77) = true ∧ wparks (w_tr runw77) = 1 ∧
  w_tr (xplay [XDeliver; XWake; XAsk] runw77) = [YUB WStale; YAsk; YBack; YDeliver; YFrame 2; YLeave; YGot 1; YDeliver; YFrame 1; YPark; YAsk].
Proof. split; [apply xplay_reach, wreach_0|]. split; [by apply wcalmb_ok|]. split; [|split]; vm_compute; reflexivity. Qed.
