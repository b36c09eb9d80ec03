(** * Facts about the frame generators. *)
From stdpp Require Import list option.
From Verif Require Import ListenModel ListenSpec ListenFacts WsModel WsSpec.

(** ** The listener as the watcher generator uses it *)
Section inner.
Context {V : Type}.
Implicit Types l : lst V.

Record good (to : option nat) l : Prop := {
  g_inv : linv to true l; g_ub : l_ub l = false; g_calm : calm (l_tr l);
  g_obj : TObjGone ∉ l_tr l; g_drop : TDropped ∉ l_tr l; g_fire : TFire ∉ l_tr l }.

Lemma good_obj to l : good to l -> l_obj l = true.
Proof. intros []. pose proof (i_obj _ _ _ g_inv0) as H. destruct (l_obj l); [done|]. by destruct H. Qed.
Lemma good_alive to l : good to l -> l_alive l = true.
Proof. intros []. destruct (l_alive l) eqn:E; [done|]. by apply (i_alive _ _ _ g_inv0) in E. Qed.
Lemma good_gen to l : good to l -> l_gen l ≠ GEnd.
Proof.
  intros [] E. apply (i_end _ _ _ g_inv0) in E. apply elem_of_list_split in E as [t2 [t1 E]].
  pose proof (i_tr _ _ _ g_inv0 _ _ _ E) as [_ [?|[H|(d & w & u & _ & H & _)]]]; [done| |].
  - apply g_obj0. rewrite E. apply elem_of_app. right. by right.
  - apply g_fire0. rewrite E, H. apply elem_of_app. right. right. left.
Qed.
Lemma good_fire to l : good to l -> l_fire l = 0.
Proof. intros H. destruct (l_fire l) eqn:E; [done|]. destruct (good_gen _ _ H). by apply (i_fire _ _ _ (g_inv _ _ H)); rewrite E. Qed.
Lemma good_conn to l : good to l -> l_conn l = true.
Proof.
  intros H. apply (i_conn' _ _ _ (g_inv _ _ H)); [by eapply good_alive|by eapply good_obj|apply H].
Qed.

(** A step from a good state is good if it does not log anything final. *)
Lemma good_step to a l l' t :
  good to l -> perform a l = Some l' -> l_tr l' = t ++ l_tr l ->
  (∀ e, e ∈ t -> match e with TObjGone | TDropped | TFire | TUB _ => False | _ => True end) ->
  calm (l_tr l') -> good to l'.
Proof.
  intros H Hp Ht Hn Hc. destruct (linv_step _ _ _ _ _ (g_inv _ _ H) Hp Hc) as [[Hi Hu]|(_ & u & He & _)].
  - split; try done; rewrite Ht; intros [Hin|Hin]%elem_of_app;
      first [by apply Hn in Hin|by apply (g_obj _ _ H)|by apply (g_drop _ _ H)|by apply (g_fire _ _ H)].
  - exfalso. rewrite Ht in He. destruct t as [|e t].
    + cbn in He. apply (f_equal length) in He. cbn in He. lia.
    + cbn in He. injection He as -> _. apply (Hn (TUB u)). left.
Qed.

Lemma calm_more (t tr : list (lev V)) :
  calm tr -> (∀ e, e ∈ t -> match e with TDeliver _ => False | _ => True end) -> calm (t ++ tr).
Proof. apply calm_app. Qed.
Ltac one := intros ? Hin; rewrite ?elem_of_cons, ?elem_of_nil in Hin; destruct_or?; subst; done.

Lemma good_emit to l v : good to l -> l_con l ≠ CRun ->
  ∃ l', perform (AEmit v) l = Some l' ∧ good to l' ∧ l_tr l' = TEmit v :: l_tr l ∧ l_con l' = l_con l.
Proof.
  intros H Hc. assert (idle l = true) as Hid by (unfold idle; rewrite (good_fire _ _ H); by destruct (l_con l)).
  assert (perform (AEmit v) l = Some (log (TEmit v) (set_mail (l_mail l ++ [v]) l))) as Hp.
  { unfold perform. by rewrite (g_ub _ _ H), Hid, orb_true_r, (good_obj _ _ H), (good_conn _ _ H). }
  eexists. split; [done|]. split; [|done]. eapply (good_step _ _ _ _ [_]); [done|done|done|one|]. apply (calm_more [_]); [apply H|one].
Qed.
Lemma good_wake to l : good to l -> l_con l = CAway ->
  ∃ l', perform AWake l = Some l' ∧ good to l' ∧ l_tr l' = TBack :: l_tr l ∧ l_con l' = CRun.
Proof.
  intros H Hc. assert (idle l = true) as Hid by (unfold idle; by rewrite (good_fire _ _ H), Hc).
  pose proof (i_out _ _ _ (g_inv _ _ H)) as Ho. rewrite Hc in Ho.
  assert (perform AWake l = Some (log TBack (set_out 0 (set_con CRun l)))) as Hp.
  { unfold perform. by rewrite (g_ub _ _ H), Hid, Ho, Hc. }
  eexists. split; [done|]. split; [|done]. eapply (good_step _ _ _ _ [_]); [done|done|done|one|]. apply (calm_more [_]); [apply H|one].
Qed.
Lemma good_leave to l : good to l -> l_con l = CRun ->
  ∃ l', perform ALeave l = Some l' ∧ good to l' ∧ l_tr l' = TLeave :: l_tr l ∧ l_con l' = CAway.
Proof.
  intros H Hc. assert (perform ALeave l = Some (log TLeave (set_out (S (l_out l)) (set_con CAway l)))) as Hp.
  { unfold perform, runs. by rewrite (g_ub _ _ H), Hc. }
  eexists. split; [done|]. split; [|done]. eapply (good_step _ _ _ _ [_]); [done|done|done|one|]. apply (calm_more [_]); [apply H|one].
Qed.
Lemma good_ask to l : good to l -> l_con l = CRun ->
  ∃ l', perform AAsk l = Some l' ∧ good to l' ∧
    ((∃ v, l_con l' = CRun ∧ l_gen l' = GYield v ∧ l_tr l' = TGot v :: TAsk :: l_tr l) ∨
     (l_con l' = CAsked ∧ l_tr l' = TPark :: TAsk :: l_tr l)).
Proof.
  intros H Hc. pose proof (good_alive _ _ H) as Ha. pose proof (good_gen _ _ H) as Hg. pose proof (good_obj _ _ H) as Ho.
  assert (l_gen l ≠ GWait) as Hgw by (intros E; apply (i_wait _ _ _ (g_inv _ _ H) Ha) in E; congruence).
  assert (perform AAsk l = Some (gen_loop (log TAsk (set_con CAsked l)))) as Hp.
  { unfold perform, runs, gen_resume. rewrite (g_ub _ _ H), Hc, Ha. cbn. by destruct (l_gen l). }
  eexists. split; [done|]. unfold gen_loop, queue_ready in *. cbn in *. rewrite Ho in *. cbn in *.
  destruct (l_queue l) as [|v q] eqn:Eq; cbn in *.
  - split; [|right; split; unfold handle_timeout; cbn; by destruct (l_to l)].
    assert (∀ x : lst V, l_tr (log TPark (set_gen GWait (set_awaiter x))) = TPark :: l_tr x) as Hx by done.
    assert (l_tr (handle_timeout (log TAsk (set_con CAsked l))) = TAsk :: l_tr l) as Hy by (unfold handle_timeout; cbn; by destruct (l_to l)).
    eapply (good_step _ _ _ _ [TPark; TAsk]); [done|done|by rewrite Hx, Hy|one|]. rewrite Hx, Hy. by apply (calm_more [_; _]); [apply H|one].
  - unfold gen_result, dequeue, to_consumer in *. cbn in *. rewrite Eq in *. cbn in *. split; [|left; by exists v].
    eapply (good_step _ _ _ _ [TGot v; TAsk]); [done|done|done|one|]. by apply (calm_more [_; _]); [apply H|one].
Qed.
Lemma good_deliver to l l' : good to l -> perform ADeliver l = Some l' -> parked (l_tr l) = true ∨ parks (l_tr l) = 0 ->
  good to l' ∧ ∃ v q, emitted (l_tr l) = delivered (l_tr l) ++ v :: q ∧
    ((l_con l = CAsked ∧ l_con l' = CRun ∧ l_gen l' = GYield v ∧ l_tr l' = TGot v :: TDeliver v :: l_tr l) ∨
     (l_con l' = l_con l ∧ l_con l ≠ CAsked ∧ l_con l ≠ CRun ∧ l_tr l' = TDeliver v :: l_tr l)).
Proof.
  intros H Hp Hq. pose proof (good_alive _ _ H) as Ha. pose proof Hp as Hp'.
  unfold perform in Hp. rewrite (g_ub _ _ H) in Hp. destruct (idle l) eqn:Hid; [|done]. destruct (l_mail l) as [|v m] eqn:Em; [done|].
  injection Hp as Hl'. pose proof (i_mail _ _ _ (g_inv _ _ H)) as (r & Hm & _). rewrite Em in Hm.
  assert (calm (TDeliver v :: l_tr l)) as Hcd by (apply calm_cons; split; [done|apply H]).
  pose proof (i_aw _ _ _ (g_inv _ _ H) Ha) as Haw.
  destruct (decide (parks (l_tr l) = 0)) as [Hz|Hz].
  - rewrite bool_decide_eq_false_2 in Haw by tauto.
    assert (l_con l ≠ CAsked) as Hca. { intros E. apply (i_park _ _ _ (g_inv _ _ H)) in E. by apply parked_parks in E. }
    assert (l_tr l' = TDeliver v :: l_tr l ∧ l_con l' = l_con l) as [Ht Hcc].
    { rewrite <- Hl'. unfold queue_slot. cbn. by destruct (l_to l); cbn; rewrite Haw. }
    split; [|exists v, (m ++ r); split; [done|]; right; split_and!; try done; unfold idle in Hid; by destruct (l_con l)].
    eapply (good_step _ _ _ _ [TDeliver v]); [done|done|exact Ht|one|by rewrite Ht].
  - destruct Hq as [Hq|]; [|done]. rewrite bool_decide_eq_true_2 in Haw by done.
    pose proof (proj1 (i_park _ _ _ (g_inv _ _ H)) Hq) as Hca. pose proof (proj1 (i_wait _ _ _ (g_inv _ _ H) Ha) Hca) as Hg.
    pose proof (i_waitq _ _ _ (g_inv _ _ H) Ha Hg) as Hqe.
    assert (l_tr l' = TGot v :: TDeliver v :: l_tr l ∧ l_con l' = CRun ∧ l_gen l' = GYield v) as (Ht & Hcc & Hgg).
    { rewrite <- Hl'. unfold queue_slot, gen_resume, gen_result, dequeue, to_consumer. cbn.
      destruct (l_to l); cbn; rewrite Haw, Hg, Hqe; cbn; by rewrite Hca. }
    split; [|exists v, (m ++ r); split; [done|]; by left].
    eapply (good_step _ _ _ _ [TGot v; TDeliver v]); [done|done|exact Ht|one|]. rewrite Ht. by apply (calm_more [_]); [|one].
Qed.
Lemma good_tick to l l' : good to l -> perform ATick l = Some l' -> good to l' ∧ l_tr l' = TTick :: l_tr l ∧ l_con l' = l_con l.
Proof.
  intros H Hp. pose proof Hp as Hp'. unfold perform in Hp. rewrite (g_ub _ _ H) in Hp. destruct (idle l); [|done].
  destruct (match l_timer l with Some d => _ | None => _ end); [|done]. injection Hp as <-. split; [|done].
  eapply (good_step _ _ _ _ [_]); [done|done|done|one|]. apply (calm_more [_]); [apply H|one].
Qed.
Lemma good_timeout to l l' : good to l -> perform AFire l = Some l' ->
  l_con l = CAsked ∧ l_con l' = CRun ∧ l_gen l' = GEnd ∧
  ∃ d w u, to = Some d ∧ l_tr l = w ++ TPark :: u ∧ silent w ∧ ticks w = d.
Proof.
  intros H Hp. pose proof (good_alive _ _ H) as Ha. unfold perform in Hp. rewrite (g_ub _ _ H) in Hp.
  destruct (idle l) eqn:Hid; [|done]. destruct (l_timer l) as [dl|] eqn:Et; [|done]. destruct (dl <=? l_now l) eqn:Hle; [|done].
  injection Hp as Hl'. apply Nat.leb_le in Hle.
  destruct (i_timer _ _ _ (g_inv _ _ H) _ Et) as (Hg & _ & n & w & u & Hto & Htr & Hs & Hd & Hd2).
  pose proof (proj2 (i_wait _ _ _ (g_inv _ _ H) Ha) Hg) as Hca. split; [done|].
  pose proof (i_tconns _ _ _ (g_inv _ _ H) Ha (good_obj _ _ H)) as Htc. rewrite Hto in Htc.
  assert (parks (l_tr l) ≠ 0) as Hpk by (by apply parked_parks, (i_park _ _ _ (g_inv _ _ H))).
  destruct (parks (l_tr l)) as [|k] eqn:Ek; [done|].
  assert (l_con l' = CRun ∧ l_gen l' = GEnd) as [? ?].
  { rewrite <- Hl'. unfold next_slot. cbn. rewrite Htc. unfold timeout_slot, gen_resume, gen_result, dequeue, to_consumer. cbn.
    rewrite Hg, (i_waitq _ _ _ (g_inv _ _ H) Ha Hg). cbn. by rewrite Hca. }
  split; [done|]. split; [done|]. exists n, w, u. split_and!; try done. lia.
Qed.
Lemma good_quiet to l d w u : good to l -> to = Some d -> l_con l = CAsked -> l_tr l = w ++ TPark :: u -> silent w ->
  ticks w ≤ d ∧ (ticks w < d -> ∃ l', perform ATick l = Some l') ∧
  (ticks w = d -> (∃ l', perform AFire l = Some l') ∧ perform ATick l = None).
Proof.
  intros H Hto Hc Ht Hs. pose proof (good_alive _ _ H) as Ha. pose proof (good_fire _ _ H) as Hf.
  pose proof (proj1 (i_wait _ _ _ (g_inv _ _ H) Ha) Hc) as Hg.
  pose proof (i_waitt _ _ _ (g_inv _ _ H) Ha (good_obj _ _ H) Hg Hf ltac:(by rewrite Hto)) as Htm. destruct (l_timer l) as [dl|] eqn:Et; [|done].
  destruct (i_timer _ _ _ (g_inv _ _ H) _ Et) as (_ & _ & n & w' & u' & Hto' & Ht' & Hs' & Hdl & Hle).
  rewrite Hto in Hto'. injection Hto' as <-.
  rewrite Ht in Ht'. destruct (silent_split _ _ _ _ Hs Hs' Ht') as [<- <-].
  assert (idle l = true) as Hid by (unfold idle; by rewrite Hc, Hf).
  split; [lia|]. unfold perform. rewrite (g_ub _ _ H), Hid, Et. split.
  - intros Hlt. destruct (l_now l <? dl) eqn:E; [eauto|]. apply Nat.ltb_ge in E. lia.
  - intros Heq. assert (dl = l_now l) as -> by lia. rewrite Nat.leb_refl, Nat.ltb_irrefl. eauto.
Qed.
Lemma good_pending to l v q : good to l -> l_con l = CAsked -> emitted (l_tr l) = delivered (l_tr l) ++ v :: q ->
  ∃ l', perform ADeliver l = Some l' ∧ l_con l' = CRun ∧ l_gen l' = GYield v.
Proof.
  intros H Hc He. assert (idle l = true) as Hid by (unfold idle; by rewrite Hc, (good_fire _ _ H)).
  destruct (i_mail _ _ _ (g_inv _ _ H)) as (r & Hm & Hr). rewrite (Hr (good_conn _ _ H)), (right_id_L [] (++)), He in Hm. simplify_list_eq.
  assert (∃ l', perform ADeliver l = Some l') as [l' Hp] by (unfold perform; rewrite (g_ub _ _ H), Hid, <- Hm; eauto).
  destruct (good_deliver _ _ _ H Hp) as (_ & v' & q' & He' & [(_ & ? & ? & _)|(_ & ? & _)]); [left; by apply (i_park _ _ _ (g_inv _ _ H))| |done].
  exists l'. split; [done|]. rewrite He in He'. by simplify_list_eq.
Qed.
Lemma good_init to : good to (listener (V:=V) to true).
Proof. split; try (by intros ?%elem_of_nil); [apply linv_init|done|apply always_nil]. Qed.
End inner.

(** ** The frame generator *)
Section outer.
Context {F : Type}.
Implicit Types tr : list (wev F).
Implicit Types s : wst F.

Lemma walways_nil (P : wev F -> list (wev F) -> Prop) : walways P [].
Proof. intros [|??] ?? [=]. Qed.
Lemma walways_cons (P : wev F -> list (wev F) -> Prop) e tr : walways P (e :: tr) <-> P e tr ∧ walways P tr.
Proof.
  split.
  - intros H. split; [by apply (H [])|]. intros t2 e' t1 ->. by apply (H (e :: t2)).
  - intros [H1 H2] [|e2 t2] e' t1 He; cbn in He; injection He as -> ->; [done|by eapply H2].
Qed.
Lemma yields_cons e tr : yields (e :: tr) = yields tr ++ match e with YGot f => [f] | _ => [] end.
Proof. unfold yields. destruct e; rewrite ?(right_id_L [] (++)); try done. by rewrite <- reverse_cons. Qed.
Lemma arrived_cons e tr : arrived (e :: tr) = arrived tr ++ match e with YFrame f => [f] | _ => [] end.
Proof. unfold arrived. destruct e; rewrite ?(right_id_L [] (++)); try done. by rewrite <- reverse_cons. Qed.
Lemma ndelivered_cons e tr : ndelivered (e :: tr) = match e with YDeliver => 1 | _ => 0 end + ndelivered tr.
Proof. unfold ndelivered. by destruct e. Qed.
Lemma wparks_cons e tr : wparks (e :: tr) = match e with YPark => 1 | _ => 0 end + wparks tr.
Proof. unfold wparks. by destruct e. Qed.
Lemma wticks_cons e tr : wticks (e :: tr) = match e with YTick => 1 | _ => 0 end + wticks tr.
Proof. unfold wticks. by destruct e. Qed.
Lemma stream_cons e tr : stream (e :: tr) = stream tr ++
  match e with YFrame f => if begun tr then [Some f] else [] | YState false => if begun tr then [None] else [] | _ => [] end.
Proof. cbn. by destruct (begun tr), e as [| []| | | | | | | | | | | | |]. Qed.
Lemma begun_cons e tr : begun (e :: tr) = match e with YAsk => true | _ => begun tr end.
Proof. by destruct e. Qed.
Lemma begun_stream tr : begun tr = false -> stream tr = [].
Proof.
  induction tr as [|e tr IH]; [done|]. rewrite begun_cons, stream_cons. destruct (begun tr); [by destruct e|]. intros _. rewrite IH by done. by destruct e as [| []| | | | | | | | | | | | |].
Qed.
Lemma wcalm_cons e tr : wcalm (e :: tr) <-> match e with YDeliver => wparked tr = true ∨ wparks tr = 0 | _ => True end ∧ wcalm tr.
Proof. apply walways_cons. Qed.
Lemma wsilent_cons e tr : wsilent (e :: tr) <-> match e with YFrame _ | YState _ | YTick => True | _ => False end ∧ wsilent tr.
Proof.
  split.
  - intros H. split; [apply (H e); left|]. intros e' He. apply H. by right.
  - intros [H1 H2] e' [->|He]%elem_of_cons; [done|]. by apply H2.
Qed.

#[local] Arguments emitted : simpl never.
#[local] Arguments delivered : simpl never.
#[local] Arguments got : simpl never.
#[local] Arguments parks : simpl never.
#[local] Arguments ticks : simpl never.
#[local] Arguments stream : simpl never.
#[local] Arguments begun : simpl never.
#[local] Arguments yields : simpl never.
#[local] Arguments ndelivered : simpl never.
#[local] Arguments wparks : simpl never.
#[local] Arguments wticks : simpl never.

Definition wev_ok (to : option nat) (e : wev F) tr : Prop :=
  match e with
  | YGot f => (Some <$> yields tr) ++ [Some f] `prefix_of` stream tr
  | YEnd => (∃ rest, stream tr = (Some <$> yields tr) ++ None :: rest) ∨
            (∃ d w u, to = Some d ∧ tr = YFire :: w ++ YPark :: u ∧ wsilent w ∧ wticks w = d)
  | YPark => Some <$> yields tr = take (ndelivered tr) (stream tr)
  | YEarly => False
  | YUB u => u = WPastEnd
  | _ => True
  end.

(** The segments since the consumer waits, of the listener and of the generator. *)
Definition segs (t : list (lev (option F))) tr : Prop :=
  ∃ w u w' u', t = w ++ TPark :: u ∧ silent w ∧ tr = w' ++ YPark :: u' ∧ wsilent w' ∧ wticks w' = ticks w.

Record linked (to : option nat) (l : lst (option F)) tr : Prop := {
  k_good : good to l;
  k_emit : emitted (l_tr l) = stream tr;
  k_got : got (l_tr l) = Some <$> yields tr;
  k_del : length (delivered (l_tr l)) = ndelivered tr;
  k_park : parks (l_tr l) = wparks tr;
  k_begun : begun tr = true }.

Record winv (to : option nat) s : Prop := {
  j_to : w_to s = to;
  j_park : wparked (w_tr s) = true <-> w_user s = CAsked;
  j_away : waway (w_tr s) = true <-> w_user s = CAway;
  j_fin : w_user s = CFin -> YFin ∈ w_tr s;
  j_alive : w_alive s = false <-> YDropped ∈ w_tr s;
  j_pre : Some <$> yields (w_tr s) `prefix_of` stream (w_tr s);
  j_in : match w_in s with
    | Some l => w_alive s = true ∧ linked to l (w_tr s) ∧
        match w_pos s with
        | WInner => l_con l = CAsked ∧ w_user s = CAsked ∧ segs (l_tr l) (w_tr s)
        | WYield _ => l_con l = CAway ∧ w_user s ≠ CAsked
        | _ => False end
    | None => w_alive s = true -> w_user s ≠ CAsked ∧
        (w_pos s = WInit ∧ begun (w_tr s) = false ∧ wparks (w_tr s) = 0 ∧ yields (w_tr s) = [] ∧ ndelivered (w_tr s) = 0 ∨ w_pos s = WEnd)
    end;
  j_end : w_pos s = WEnd -> YEnd ∈ w_tr s;
  j_tr : walways (wev_ok to) (w_tr s) }.

Lemma winv_init to : winv to (frames to).
Proof.
  split; cbn; try done; try (rewrite elem_of_nil; done).
  - intros _. split; [done|]. by left.
  - apply walways_nil.
Qed.

Ltac wnorm := rewrite ?yields_cons, ?ndelivered_cons, ?wparks_cons, ?wticks_cons, ?stream_cons, ?begun_cons, ?elem_of_cons,
  ?emitted_cons, ?delivered_cons, ?got_cons, ?parks_cons, ?ticks_cons, ?(right_id_L [] (++)) in *.

Lemma inner_prefix to (l : lst (option F)) : good to l -> ∃ q, emitted (l_tr l) = got (l_tr l) ++ q.
Proof.
  intros H. destruct (i_pre _ _ _ (g_inv _ _ H)) as [q1 H1]. destruct (i_mail _ _ _ (g_inv _ _ H)) as (r & H2 & _).
  rewrite H1 in H2. exists (q1 ++ l_mail l ++ r). by rewrite H2, <- (assoc_L (++)).
Qed.

(** The listener yielded to the watcher generator. *)
Lemma w_got_ok to (l : lst (option F)) s v :
  w_to s = to -> w_user s = CAsked -> w_alive s = true -> w_ub s = false ->
  good to l -> l_con l = CRun -> l_gen l = GYield v ->
  emitted (l_tr l) = stream (w_tr s) -> got (l_tr l) = (Some <$> yields (w_tr s)) ++ [v] ->
  length (delivered (l_tr l)) = ndelivered (w_tr s) -> parks (l_tr l) = wparks (w_tr s) -> begun (w_tr s) = true ->
  (YDropped ∈ w_tr s -> False) -> walways (wev_ok to) (w_tr s) ->
  winv to (w_got l s) ∧ w_ub (w_got l s) = false.
Proof.
  intros Hto Hu Ha Hub Hg Hc Hgen Hem Hgot Hdel Hpk Hb Hnd Htr.
  destruct (inner_prefix _ _ Hg) as [q Hq]. rewrite Hem, Hgot in Hq.
  unfold w_got. rewrite Hgen. destruct v as [f|].
  - destruct (good_leave _ _ Hg Hc) as (l' & -> & Hg' & Ht' & Hc'). unfold to_user. cbn. rewrite Hu. cbn. split; [|done].
    split; cbn; wnorm; try done.
    + rewrite Ha. split; [done|]. intros [?|?]; done.
    + rewrite Hq, fmap_app. by apply prefix_app_r.
    + split; [done|]. split; [|done]. split; rewrite ?Ht'; wnorm; try done. rewrite Hgot, fmap_app. done.
    + apply walways_cons. split; [|done]. cbn. rewrite Hq. by apply prefix_app_r.
  - unfold to_user. cbn. rewrite Hu. cbn. split; [|done]. split; cbn; wnorm; try done.
    + rewrite Ha. split; [done|]. intros [?|?]; done.
    + rewrite Hq, <- (assoc_L (++)). by apply prefix_app_r.
    + intros _. split; [done|]. by right.
    + by left.
    + apply walways_cons. split; [|done]. cbn. left. exists q. rewrite Hq, <- (assoc_L (++)). done.
Qed.

(** The watcher generator asks the listener. *)
Lemma w_next_ok to (l : lst (option F)) s :
  w_to s = to -> w_user s = CAsked -> w_alive s = true -> w_ub s = false ->
  linked to l (w_tr s) -> l_con l = CRun -> (YDropped ∈ w_tr s -> False) -> walways (wev_ok to) (w_tr s) ->
  winv to (w_next l s) ∧ w_ub (w_next l s) = false.
Proof.
  intros Hto Hu Ha Hub [Hg Hem Hgot Hdel Hpk Hb] Hc Hnd Htr.
  destruct (good_ask _ _ Hg Hc) as (l' & Hp & Hg' & [(v & Hc' & Hgen & Ht)|(Hc' & Ht)]); unfold w_next; rewrite Hp; unfold runs; rewrite Hc'.
  - apply (w_got_ok to l' s v); try done; rewrite Ht; wnorm; try done. by rewrite Hgot.
  - cbn. rewrite Hu. cbn. split; [|done]. destruct (inner_prefix _ _ Hg) as [q Hq]. split; cbn; wnorm; try done.
    + by rewrite Hu.
    + by rewrite Hu.
    + rewrite Ha. split; [done|]. intros [?|?]; done.
    + rewrite <- Hem, <- Hgot, Hq. by apply prefix_app_r.
    + split; [done|]. split; [split; rewrite ?Ht; wnorm; try done; by rewrite Hpk|]. split; [done|]. split; [done|].
      exists [], (TAsk :: l_tr l), [], (w_tr s). rewrite Ht. split_and!; try done; by intros ? ?%elem_of_nil.
    + apply walways_cons. split; [|done]. cbn. rewrite <- Hem, <- Hgot, <- Hdel.
      assert (got (l_tr l) = delivered (l_tr l)) as Hgd.
      { pose proof (i_tr _ _ _ (g_inv _ _ Hg')) as Hx. rewrite Ht in Hx. apply always_cons in Hx as [Hx _]. unfold ev_ok in Hx.
        by rewrite got_cons, delivered_cons, !(right_id_L [] (++)) in Hx. }
      destruct (i_mail _ _ _ (g_inv _ _ Hg)) as (r & -> & _). by rewrite take_app, Hgd.
Qed.
Lemma segs_ext (t : list (lev (option F))) tr e e' :
  segs t tr -> match e with TEmit _ | TTick => True | _ => False end -> match e' with YFrame _ | YState _ | YTick => True | _ => False end ->
  match e with TTick => 1 | _ => 0 end = match e' with YTick => 1 | _ => 0 end -> segs (e :: t) (e' :: tr).
Proof.
  intros (w & u & w' & u' & -> & Hs & -> & Hs' & Ht) H1 H2 H3. exists (e :: w), u, (e' :: w'), u'. split_and!; try done.
  - apply silent_cons. split; [by destruct e|done].
  - by apply wsilent_cons.
  - wnorm. rewrite Ht. by destruct e, e'; cbn in *; simplify_eq.
Qed.

(** An event that only the watcher and the listener notice. *)
Lemma step_ready to s e o :
  winv to s -> w_ub s = false ->
  match e with YFrame f => o = Some (Some f) | YState false => o = Some None | YState true => o = None | _ => False end ->
  let s' := wlog e (match o with Some v => w_ready v s | None => s end) in winv to s' ∧ w_ub s' = false.
Proof.
  intros [] Hub He.
  assert (∃ x, (match o with Some v => w_ready v s | None => s end) = wset_in x s ∧
    match w_in s, x with
    | Some l, Some l' => ∃ t, l_tr l' = t ++ l_tr l ∧ good to l' ∧ l_con l' = l_con l ∧ t = match o with Some v => [TEmit v] | None => [] end
    | None, None => True | _, _ => False end) as (x & -> & Hx).
  { destruct o as [v|].
    - unfold w_ready. destruct (w_in s) as [l|] eqn:Ei.
      + destruct j_in0 as (Ha & [] & Hp).
        destruct (good_emit to l v) as (l' & -> & Hg & Ht & Hc); [done| |].
        { destruct (w_pos s); [done|..|done]; destruct Hp as [-> _]; done. }
        exists (Some l'). split; [done|]. by exists [TEmit v].
      + exists None. split; [|done]. destruct s. cbn in *. by rewrite Ei.
    - exists (w_in s). split; [by destruct s|]. destruct (w_in s) as [l|]; [|done]. exists []. by destruct j_in0 as (? & [] & _). }
  cbn. split; [|done]. split; cbn.
  - done.
  - rewrite <- j_park0. by destruct e.
  - rewrite <- j_away0. by destruct e.
  - intros H. right. auto.
  - rewrite j_alive0, elem_of_cons. clear -He. split; [tauto|]. intros [<-|?]; done.
  - wnorm. destruct e; try done; wnorm; by apply prefix_app_r.
  - destruct (w_in s) as [l|] eqn:Ei, x as [l'|]; try done.
    + destruct Hx as (t & Ht & Hg & Hc & Heq). destruct j_in0 as (Ha & [] & Hp). split; [done|]. split.
      * split; try done; rewrite ?Ht, ?Heq; destruct e as [f|[]| | | | | | | | | | | | |]; try done; subst o; cbn; wnorm; try done; rewrite ?k_begun0; congruence.
      * rewrite Hc. destruct (w_pos s); try done. destruct Hp as (? & ? & Hsg). split_and!; try done.
        rewrite Ht, Heq. destruct e as [f|[]| | | | | | | | | | | | |]; try done; subst o; cbn; try by apply segs_ext.
        destruct Hsg as (w & u & w' & u' & -> & Hs & -> & Hs' & Htk). exists w, u, (YState true :: w'), u'. split_and!; try done. by apply wsilent_cons.
    + intros Ha. destruct (j_in0 Ha) as (? & [(? & ? & ? & ? & ?)|?]); (split; [done|]); [left|by right]. destruct e; try done; by wnorm.
  - intros H. right. auto.
  - apply walways_cons. split; [|done]. by destruct e.
Qed.

Lemma step_tick to s s' : winv to s -> w_ub s = false -> wperform XTick s = Some s' -> winv to s' ∧ w_ub s' = false.
Proof.
  intros [] Hub Hp. unfold wperform in Hp. rewrite Hub in Hp. destruct (widle s); [|done]. destruct (w_in s) as [l|] eqn:Ei.
  - destruct j_in0 as (Ha & [] & Hq). destruct (perform ATick l) as [l'|] eqn:Ep; [|done]. injection Hp as <-.
    destruct (good_tick _ _ _ k_good0 Ep) as (Hg & Ht & Hc). cbn. split; [|done]. split; cbn; wnorm; try done; try tauto.
    + rewrite j_alive0. clear. split; [tauto|]. intros; destruct_or?; done.
    + split; [done|]. rewrite Hc. split; [split; rewrite ?Ht; by wnorm|]. destruct (w_pos s); try done.
      destruct Hq as (? & ? & ?). split_and!; try done. rewrite Ht. by apply segs_ext.
    + apply walways_cons. by split.
  - injection Hp as <-. cbn. split; [|done]. split; cbn; wnorm; try done; try tauto.
    + rewrite j_alive0. clear. split; [tauto|]. intros; destruct_or?; done.
    + by rewrite Ei.
    + apply walways_cons. by split.
Qed.

Lemma parked_inner to (l : lst (option F)) tr : linked to l tr -> parked (l_tr l) = true <-> l_con l = CAsked.
Proof. intros []. apply (i_park _ _ _ (g_inv _ _ k_good0)). Qed.

Lemma step_deliver to s s' : winv to s -> w_ub s = false -> wperform XDeliver s = Some s' -> wcalm (w_tr s') -> winv to s' ∧ w_ub s' = false.
Proof.
  intros Hi Hub Hp Hc. pose proof Hi as []. unfold wperform in Hp. rewrite Hub in Hp. destruct (widle s) eqn:Hid; [|done].
  destruct (w_in s) as [l|] eqn:Ei; [|done]. destruct j_in0 as (Ha & Hl & Hq). pose proof Hl as [].
  destruct (perform ADeliver l) as [l'|] eqn:Ep; [|done]. injection Hp as <-.
  assert (wparked (w_tr s) = true ∨ wparks (w_tr s) = 0) as Hw.
  { assert (∀ t, w_tr (w_back l l' (wlog YDeliver s)) = t ++ YDeliver :: w_tr s -> wparked (w_tr s) = true ∨ wparks (w_tr s) = 0) as Hx.
    { intros t Ht. by apply (Hc t YDeliver (w_tr s)). }
    revert Hx. clear. unfold w_back, w_got, w_next, w_got, to_user. intros Hx.
    repeat match goal with H : context [match ?x with _ => _ end] |- _ => destruct x; cbn in H end;
      first [by apply (Hx [])|by eapply (Hx [_])]. }
  assert (parked (l_tr l) = true ∨ parks (l_tr l) = 0) as Hpk.
  { rewrite k_park0. destruct Hw as [Hw|]; [left|by right]. rewrite (parked_inner _ _ _ Hl). apply j_park0 in Hw.
    destruct (w_pos s); try done; destruct_and?; congruence. }
  destruct (good_deliver _ _ _ k_good0 Ep Hpk) as (Hg & v & q & Hem & [(Hca & Hc' & Hgen & Ht)|(Hc' & Hna & Hnr & Ht)]).
  - unfold w_back, runs. rewrite Hc', Hca.
    assert (w_user s = CAsked) as Hu by (destruct (w_pos s); try done; destruct_and?; congruence).
    apply (w_got_ok to l' _ v); cbn; try done; try (rewrite Ht; wnorm; done).
    + rewrite Ht. wnorm. by rewrite k_got0.
    + rewrite Ht. wnorm. rewrite app_length. cbn. rewrite k_del0. lia.
    + rewrite elem_of_cons. intros [?|Hd]; [done|]. apply j_alive0 in Hd. congruence.
    + apply walways_cons. by split.
  - unfold w_back, runs. rewrite Hc'. assert (l_con l = CAway) as Hca by (destruct (w_pos s); try done; by destruct Hq as [? _]).
    rewrite Hca. cbn. split; [|done]. split; cbn; wnorm; try done; try tauto.
    + rewrite j_alive0. clear. split; [tauto|]. intros; destruct_or?; done.
    + split; [done|]. split; [split; rewrite ?Ht; wnorm; try done; rewrite app_length; cbn; lia|].
      destruct (w_pos s); try done; destruct Hq as [? Hq2]; [congruence|split; [congruence|apply Hq2]].
    + apply walways_cons. by split.
Qed.

Lemma step_fire to s s' : winv to s -> w_ub s = false -> wperform XFire s = Some s' -> winv to s' ∧ w_ub s' = false.
Proof.
  intros [] Hub Hp. unfold wperform in Hp. rewrite Hub in Hp. destruct (widle s) eqn:Hid; [|done].
  destruct (w_in s) as [l|] eqn:Ei; [|done]. destruct j_in0 as (Ha & [] & Hq).
  destruct (perform AFire l) as [l'|] eqn:Ep; [|done]. injection Hp as <-.
  destruct (good_timeout _ _ _ k_good0 Ep) as (Hca & Hc' & Hgen & d & w & u & Hto & Htr & Hs & Htk).
  unfold w_back, runs, w_got. rewrite Hc', Hca, Hgen.
  assert (w_user s = CAsked ∧ segs (l_tr l) (w_tr s)) as [Hu (w1 & u1 & w' & u' & Htr' & Hs1 & Hw & Hws & Hwt)] by (destruct (w_pos s); try done; destruct Hq as [? Hq2]; [done|congruence]).
  rewrite Htr in Htr'. destruct (silent_split _ _ _ _ Hs Hs1 Htr') as [<- <-].
  unfold to_user. cbn. rewrite Hu. cbn. split; [|done]. split; cbn; wnorm; try done.
  - rewrite j_alive0. clear. split; [tauto|]. intros; destruct_or?; done.
  - intros _. split; [done|]. by right.
  - by left.
  - apply walways_cons. split; [|apply walways_cons; by split]. cbn. right. exists d, w', u'. rewrite Hw. split_and!; try done. lia.
Qed.

#[local] Arguments w_next : simpl never.
Lemma step_ask to s s' : winv to s -> w_ub s = false -> wperform XAsk s = Some s' ->
  (winv to s' ∧ w_ub s' = false) ∨ (w_ub s' = true ∧ w_tr s' = YUB WPastEnd :: w_tr s ∧ (w_alive s = false ∨ w_pos s = WEnd)).
Proof.
  intros [] Hub Hp. unfold wperform in Hp. rewrite Hub in Hp. destruct (wruns s) eqn:Hr; [|done].
  assert (w_user s = CRun) as Hu by (unfold wruns in Hr; by destruct (w_user s)).
  destruct (w_alive s) eqn:Ha; injection Hp as <-; [|right; by auto].
  assert (¬ YDropped ∈ w_tr s) as Hnd by (rewrite <- j_alive0; done).
  assert (walways (wev_ok to) (YAsk :: w_tr s)) as Htr by (apply walways_cons; by split).
  destruct (w_pos s) as [| |f|] eqn:Ep; [left..|right; by auto].
  - unfold w_resume; cbn. rewrite Ep. destruct (w_in s) as [l|] eqn:Ei; [by destruct j_in0 as (? & ? & [])|].
    destruct (j_in0 eq_refl) as (_ & [(_ & Hb & Hpk & Hy & Hd)|?]); [|done]. rewrite j_to0.
    apply w_next_ok; cbn; try done; [|intros [?|?]%elem_of_cons; done].
    split; cbn; wnorm; try done; [apply good_init|by rewrite begun_stream|by rewrite Hy].
  - exfalso. destruct (w_in s) as [l|] eqn:Ei; [destruct j_in0 as (? & ? & ? & ? & ?); congruence|].
    by destruct (j_in0 eq_refl) as (_ & [[? _]|?]).
  - destruct (w_in s) as [l|] eqn:Ei; [|by destruct (j_in0 eq_refl) as (_ & [[? _]|?])].
    destruct j_in0 as (_ & [] & Hc & _). destruct (good_wake _ _ k_good0 Hc) as (l' & Hp & Hg & Ht & Hc').
    unfold w_resume; cbn. rewrite Ep, Ei, Hp. apply w_next_ok; cbn; try done; [|intros [?|?]%elem_of_cons; done].
    split; rewrite ?Ht; by wnorm.
Qed.

Lemma step_user to s s' a : winv to s -> w_ub s = false -> match a with XDrop | XWake | XLeave | XFinish => True | _ => False end ->
  wperform a s = Some s' -> winv to s' ∧ w_ub s' = false.
Proof.
  intros [] Hub Ha Hp. unfold wperform in Hp. rewrite Hub in Hp.
  destruct a; try done.
  - destruct (w_alive s) eqn:E; [|done]. injection Hp as <-. cbn. split; [|done]. split; cbn; wnorm; try done; try tauto.
    apply walways_cons. by split.
  - destruct (w_user s) eqn:Hu; try done. injection Hp as <-. cbn. split; [|done]. split; cbn; wnorm; try done.
    + rewrite j_alive0. clear. split; [tauto|]. intros; destruct_or?; done.
    + destruct (w_in s) as [l|].
      * destruct j_in0 as (? & [] & Hq). split; [done|]. split; [split; by wnorm|]. destruct (w_pos s); try done; destruct Hq as [? Hq2]; [by destruct Hq2; congruence|done].
      * intros Hal. destruct (j_in0 Hal) as [? [?|?]]; (split; [done|]); [by left|by right].
    + intros He. right. by apply j_end0.
    + apply walways_cons. by split.
  - destruct (wruns s) eqn:Hr; [|done]. assert (w_user s = CRun) as Hu by (unfold wruns in Hr; by destruct (w_user s)).
    injection Hp as <-. cbn. split; [|done]. split; cbn; wnorm; try done.
    + rewrite j_alive0. clear. split; [tauto|]. intros; destruct_or?; done.
    + destruct (w_in s) as [l|].
      * destruct j_in0 as (? & [] & Hq). split; [done|]. split; [split; by wnorm|]. destruct (w_pos s); try done; destruct Hq as [? Hq2]; [by destruct Hq2; congruence|done].
      * intros Hal. destruct (j_in0 Hal) as [? [?|?]]; (split; [done|]); [by left|by right].
    + intros He. right. by apply j_end0.
    + apply walways_cons. by split.
  - destruct (wruns s) eqn:Hr; [|done]. assert (w_user s = CRun) as Hu by (unfold wruns in Hr; by destruct (w_user s)).
    injection Hp as <-. cbn. split; [|done]. split; cbn; wnorm; try done.
    + intros _. by left.
    + rewrite j_alive0. clear. split; [tauto|]. intros; destruct_or?; done.
    + destruct (w_in s) as [l|].
      * destruct j_in0 as (? & [] & Hq). split; [done|]. split; [split; by wnorm|]. destruct (w_pos s); try done; destruct Hq as [? Hq2]; [by destruct Hq2; congruence|done].
      * intros Hal. destruct (j_in0 Hal) as [? [?|?]]; (split; [done|]); [by left|by right].
    + intros He. right. by apply j_end0.
    + apply walways_cons. by split.
Qed.

Lemma winv_step to s s' a : winv to s -> w_ub s = false -> wperform a s = Some s' -> wcalm (w_tr s') ->
  (winv to s' ∧ w_ub s' = false) ∨ (w_ub s' = true ∧ w_tr s' = YUB WPastEnd :: w_tr s ∧ (w_alive s = false ∨ w_pos s = WEnd)).
Proof.
  intros Hi Hub Hp Hc. destruct a.
  - left. unfold wperform in Hp. rewrite Hub in Hp. injection Hp as <-. by apply (step_ready to s (YFrame f) (Some (Some f))).
  - left. unfold wperform in Hp. rewrite Hub in Hp. injection Hp as <-. destruct c.
    + by apply (step_ready to s (YState true) None).
    + by apply (step_ready to s (YState false) (Some None)).
  - left. by eapply (step_user to s s' XDrop).
  - left. by eapply step_deliver.
  - left. by eapply step_tick.
  - left. by eapply step_fire.
  - left. by eapply (step_user to s s' XWake).
  - by apply step_ask.
  - left. by eapply (step_user to s s' XLeave).
  - left. by eapply (step_user to s s' XFinish).
Qed.

(** Traces only grow. *)
Definition ext s s' : Prop := ∃ t, w_tr s' = t ++ w_tr s.
Lemma ext_refl s s' : w_tr s' = w_tr s -> ext s s'. Proof. by exists []. Qed.
Lemma ext_cons s s' e : w_tr s' = e :: w_tr s -> ext s s'. Proof. by exists [e]. Qed.
Lemma ext_trans s1 s2 s3 : ext s1 s2 -> ext s2 s3 -> ext s1 s3.
Proof. intros [t H] [t' H']. exists (t' ++ t). by rewrite H', H, (assoc_L (++)). Qed.
Lemma ext_user o s : ext s (to_user o s).
Proof. unfold to_user. destruct (w_user s); by eapply ext_cons. Qed.
Lemma ext_got l s : ext s (w_got l s).
Proof.
  unfold w_got. assert (∀ p x o, ext s (to_user o (wset_pos p (wset_in x s)))) as H by (intros; eapply ext_trans; [|apply ext_user]; by apply ext_refl).
  destruct (l_gen l) as [| |[f|]|]; apply H.
Qed.
Lemma ext_next l s : ext s (w_next l s).
Proof.
  unfold w_next. destruct (perform AAsk l) as [l'|]; [|by apply ext_refl]. destruct (runs l'); [apply ext_got|].
  destruct (w_user s); first [by apply ext_refl|by eapply ext_cons].
Qed.
Lemma ext_back l l' s : ext s (w_back l l' s).
Proof. unfold w_back. destruct (runs l'); [destruct (l_con l); [apply ext_next|apply ext_got|apply ext_next|apply ext_next]|by apply ext_refl]. Qed.
Lemma ext_resume s : ext s (w_resume s).
Proof.
  unfold w_resume. destruct (w_pos s), (w_in s) as [l|]; try (by eapply ext_cons); try apply ext_next.
  destruct (perform AWake l); [apply ext_next|by apply ext_refl].
Qed.
Lemma ext_ready o s : ext s (w_ready o s).
Proof. unfold w_ready. destruct (w_in s) as [l|]; [destruct (perform (AEmit o) l)|]; by apply ext_refl. Qed.
Lemma wext s s' a : wperform a s = Some s' -> ext s s'.
Proof.
  intros Hp. unfold wperform in Hp. destruct (w_ub s); [done|]. destruct a.
  - injection Hp as <-. eapply ext_trans; [apply ext_ready|by eapply ext_cons].
  - injection Hp as <-. destruct c; [by eapply ext_cons|]. eapply ext_trans; [apply ext_ready|by eapply ext_cons].
  - destruct (w_alive s); [|done]. injection Hp as <-. by eapply ext_cons.
  - destruct (widle s); [|done]. destruct (w_in s) as [l|]; [|done]. destruct (perform ADeliver l) as [l'|]; [|done]. injection Hp as <-.
    eapply ext_trans; [|apply ext_back]. by eapply ext_cons.
  - destruct (widle s); [|done]. destruct (w_in s) as [l|]; [destruct (perform ATick l) as [l'|]; [|done]|]; injection Hp as <-; by eapply ext_cons.
  - destruct (widle s); [|done]. destruct (w_in s) as [l|]; [|done]. destruct (perform AFire l) as [l'|]; [|done]. injection Hp as <-.
    eapply ext_trans; [|apply ext_back]. by eapply ext_cons.
  - destruct (w_user s); try done. injection Hp as <-. by eapply ext_cons.
  - destruct (wruns s); [|done]. destruct (w_alive s); injection Hp as <-; [|by eapply ext_cons].
    destruct (w_pos s); [| | |by eapply ext_cons]; (eapply ext_trans; [|apply ext_resume]); by eapply ext_cons.
  - destruct (wruns s); [|done]. injection Hp as <-. by eapply ext_cons.
  - destruct (wruns s); [|done]. injection Hp as <-. by eapply ext_cons.
Qed.
Lemma wcalm_app t tr : wcalm (t ++ tr) -> wcalm tr.
Proof. intros H t2 e t1 ->. apply (H (t ++ t2)). by rewrite (assoc_L (++)). Qed.

Lemma wreach_inv to s : wreach to s -> wcalm (w_tr s) ->
  (winv to s ∧ w_ub s = false) ∨ (w_ub s = true ∧ ∃ t, w_tr s = YUB WPastEnd :: t ∧ walways (wev_ok to) t ∧
     Some <$> yields t `prefix_of` stream t ∧ (YDropped ∈ t ∨ YEnd ∈ t)).
Proof.
  induction 1 as [|s s' a Hr IH Hp]; intros Hc; [left; split; [apply winv_init|done]|].
  destruct (wext _ _ _ Hp) as [t Ht]. rewrite Ht in Hc. destruct (IH (wcalm_app _ _ Hc)) as [[Hi Hu]|[Hu _]].
  - destruct (winv_step _ _ _ _ Hi Hu Hp) as [?|(Hu' & Ht' & He)]; [by rewrite Ht|by left|right]. split; [done|].
    exists (w_tr s). destruct Hi. split_and!; try done. destruct He as [He|He]; [left; by apply j_alive0|right; by apply j_end0].
  - unfold wperform in Hp. by rewrite Hu in Hp.
Qed.

(** A user that awaits nothing else is calm. *)
Lemma waway_leave tr : waway tr = true -> YLeave ∈ tr.
Proof. induction tr as [|e tr IH]; [done|]. cbn. destruct e; try done; intros H; try (right; by apply IH). left. Qed.
Lemma wplain_cons e tr : wplain (e :: tr) <-> match e with YLeave => False | YFin => YDropped ∈ tr | YDropped => wparked tr = false | _ => True end ∧ wplain tr.
Proof. apply walways_cons. Qed.
Lemma wplain_in tr e : wplain tr -> e ∈ tr -> match e with YLeave => False | YFin => YDropped ∈ tr | _ => True end.
Proof.
  intros H [t2 [t1 ->]]%elem_of_list_split. specialize (H _ _ _ eq_refl). destruct e; try done. apply elem_of_app. right. by right.
Qed.
Lemma wplain_app t tr : wplain (t ++ tr) -> wplain tr.
Proof. intros H t2 e t1 ->. apply (H (t ++ t2)). by rewrite (assoc_L (++)). Qed.
Definition quiet1 (e : wev F) : Prop := match e with YDeliver => False | _ => True end.
Lemma wcalm_more t tr : wcalm tr -> (∀ e, e ∈ t -> quiet1 e) -> wcalm (t ++ tr).
Proof.
  intros H. induction t as [|e t IH]; intros Hq; [done|]. cbn. apply wcalm_cons. split; [|apply IH; intros; apply Hq; by right].
  specialize (Hq e ltac:(left)). by destruct e.
Qed.
Definition extq s s' : Prop := ∃ t, w_tr s' = t ++ w_tr s ∧ ∀ e, e ∈ t -> quiet1 e.
Lemma extq_refl s s' : w_tr s' = w_tr s -> extq s s'. Proof. exists []. split; [done|]. by intros ? ?%elem_of_nil. Qed.
Lemma extq_cons s s' e : quiet1 e -> w_tr s' = e :: w_tr s -> extq s s'.
Proof. exists [e]. split; [done|]. by intros ? ->%elem_of_list_singleton. Qed.
Lemma extq_trans s1 s2 s3 : extq s1 s2 -> extq s2 s3 -> extq s1 s3.
Proof. intros (t & H & Hq) (t' & H' & Hq'). exists (t' ++ t). split; [by rewrite H', H, (assoc_L (++))|]. intros e [?|?]%elem_of_app; auto. Qed.
Lemma extq_user o s : extq s (to_user o s).
Proof. unfold to_user. destruct (w_user s); (eapply extq_cons; [|reflexivity]); by destruct o. Qed.
Lemma extq_got l s : extq s (w_got l s).
Proof.
  unfold w_got. assert (∀ p x o, extq s (to_user o (wset_pos p (wset_in x s)))) as H by (intros; eapply extq_trans; [|apply extq_user]; by apply extq_refl).
  destruct (l_gen l) as [| |[f|]|]; apply H.
Qed.
Lemma extq_next l s : extq s (w_next l s).
Proof.
  unfold w_next. destruct (perform AAsk l) as [l'|]; [|by apply extq_refl]. destruct (runs l'); [apply extq_got|].
  destruct (w_user s); first [by apply extq_refl|by eapply extq_cons; [|reflexivity]].
Qed.
Lemma extq_back l l' s : extq s (w_back l l' s).
Proof. unfold w_back. destruct (runs l'); [destruct (l_con l); [apply extq_next|apply extq_got|apply extq_next|apply extq_next]|by apply extq_refl]. Qed.
Lemma extq_resume s : extq s (w_resume s).
Proof.
  unfold w_resume. destruct (w_pos s), (w_in s) as [l|]; try (by eapply extq_cons; [|reflexivity]); try apply extq_next.
  destruct (perform AWake l); [apply extq_next|by apply extq_refl].
Qed.
Lemma extq_ready o s : extq s (w_ready o s).
Proof. unfold w_ready. destruct (w_in s) as [l|]; [destruct (perform (AEmit o) l)|]; by apply extq_refl. Qed.
Ltac ec := by eapply extq_cons; [|reflexivity].
Lemma wextq s s' a : wperform a s = Some s' -> a ≠ XDeliver -> extq s s'.
Proof.
  intros Hp Hn. unfold wperform in Hp. destruct (w_ub s); [done|]. destruct a; try done.
  - injection Hp as <-. eapply extq_trans; [apply extq_ready|ec].
  - injection Hp as <-. destruct c; [ec|]. eapply extq_trans; [apply extq_ready|ec].
  - destruct (w_alive s); [|done]. injection Hp as <-. ec.
  - destruct (widle s); [|done]. destruct (w_in s) as [l|]; [destruct (perform ATick l) as [l'|]; [|done]|]; injection Hp as <-; ec.
  - destruct (widle s); [|done]. destruct (w_in s) as [l|]; [|done]. destruct (perform AFire l) as [l'|]; [|done]. injection Hp as <-.
    eapply extq_trans; [|apply extq_back]. ec.
  - destruct (w_user s); try done. injection Hp as <-. ec.
  - destruct (wruns s); [|done]. destruct (w_alive s); injection Hp as <-; [|ec].
    destruct (w_pos s); [| | |ec]; (eapply extq_trans; [|apply extq_resume]); ec.
  - destruct (wruns s); [|done]. injection Hp as <-. ec.
  - destruct (wruns s); [|done]. injection Hp as <-. ec.
Qed.
Lemma wplain_calm to s : wreach to s -> wplain (w_tr s) -> wcalm (w_tr s).
Proof.
  induction 1 as [|s s' a Hr IH Hp]; intros Hpl; [apply walways_nil|].
  destruct (wext _ _ _ Hp) as [t Ht]. pose proof Hpl as Hpl0. rewrite Ht in Hpl0. apply wplain_app in Hpl0. specialize (IH Hpl0). clear t Ht.
  assert (a = XDeliver ∨ a ≠ XDeliver) as [->|Hn] by (destruct a; auto).
  - unfold wperform in Hp. destruct (w_ub s) eqn:Hub; [done|]. destruct (wreach_inv _ _ Hr IH) as [[[] _]|[? _]]; [|congruence].
    destruct (widle s) eqn:Hid; [|done]. destruct (w_in s) as [l|] eqn:Ei; [|done]. destruct (perform ADeliver l) as [l'|] eqn:Ep; [|done].
    injection Hp as <-. destruct (extq_back l l' (wlog YDeliver s)) as (t & -> & Hq). apply wcalm_more; [|done]. apply wcalm_cons. split; [|done].
    left. apply j_park0. destruct (w_user s) eqn:Eu; try done.
    + unfold widle, wruns in Hid. by rewrite Eu in Hid.
    + destruct (wplain_in _ _ Hpl0 (waway_leave _ (proj2 j_away0 eq_refl))).
    + pose proof (wplain_in _ _ Hpl0 (j_fin0 eq_refl)) as Hd. apply j_alive0 in Hd. destruct j_in0 as [? _]. congruence.
  - destruct (wextq _ _ _ Hp Hn) as (t & -> & Hq). by apply wcalm_more.
Qed.

Lemma wsilent_split (w w' u u' : list (wev F)) : wsilent w -> wsilent w' -> w ++ YPark :: u = w' ++ YPark :: u' -> w = w' ∧ u = u'.
Proof.
  revert w'. induction w as [|e w IH]; intros [|e' w'] Hs Hs' He; cbn in He.
  - by injection He as ->.
  - injection He as <- ->. by apply wsilent_cons in Hs' as [[] _].
  - injection He as -> <-. by apply wsilent_cons in Hs as [[] _].
  - injection He as <- He. apply wsilent_cons in Hs as [_ Hs]. apply wsilent_cons in Hs' as [_ Hs']. by destruct (IH _ Hs Hs' He) as [-> ->].
Qed.

(** Undefined behaviour is recorded in the state. *)
Definition ubok s s' : Prop := w_ub s' = false -> ∀ u, YUB u ∈ w_tr s' -> YUB u ∈ w_tr s.
Lemma ubok_same s s' : w_tr s' = w_tr s -> ubok s s'. Proof. intros H _ u. by rewrite H. Qed.
Lemma ubok_cons s s' e : match e with YUB _ => False | _ => True end -> w_tr s' = e :: w_tr s -> ubok s s'.
Proof. intros He Ht _ u. rewrite Ht. intros [<-|?]%elem_of_cons; done. Qed.
Lemma ubok_ub s s' : w_ub s' = true -> ubok s s'. Proof. intros H H'. congruence. Qed.
Lemma ubok_pre s1 s2 s3 : (∀ u, YUB u ∈ w_tr s2 -> YUB u ∈ w_tr s1) -> ubok s2 s3 -> ubok s1 s3.
Proof. intros H1 H2 Hu u Hin. by apply H1, H2. Qed.
Ltac pre := intros u; cbn; rewrite ?elem_of_cons; intros; destruct_or?; done.
Lemma ubok_user o s : ubok s (to_user o s).
Proof. unfold to_user. destruct (w_user s); first [by apply ubok_ub|eapply ubok_cons; [|reflexivity]; by destruct o]. Qed.
Lemma ubok_got l s : ubok s (w_got l s).
Proof. unfold w_got. destruct (l_gen l) as [| |[f|]|]; (eapply ubok_pre; [|apply ubok_user]); done. Qed.
Lemma ubok_next l s : ubok s (w_next l s).
Proof.
  unfold w_next. destruct (perform AAsk l) as [l'|]; [|by apply ubok_same]. destruct (runs l'); [apply ubok_got|].
  destruct (w_user s); first [by apply ubok_same|by eapply ubok_cons; [|reflexivity]].
Qed.
Lemma ubok_back l l' s : ubok s (w_back l l' s).
Proof. unfold w_back. destruct (runs l'); [destruct (l_con l); [apply ubok_next|apply ubok_got|apply ubok_next|apply ubok_next]|by apply ubok_same]. Qed.
Lemma ubok_resume s : ubok s (w_resume s).
Proof.
  unfold w_resume. destruct (w_pos s), (w_in s) as [l|]; try (by apply ubok_ub); try apply ubok_next.
  destruct (perform AWake l); [apply ubok_next|by apply ubok_same].
Qed.
Lemma ready_tr o s : w_tr (w_ready o s) = w_tr s.
Proof. unfold w_ready. destruct (w_in s) as [l|]; [destruct (perform (AEmit o) l)|]; done. Qed.
Lemma no_new_ub s s' a u : wperform a s = Some s' -> w_ub s' = false -> YUB u ∈ w_tr s' -> YUB u ∈ w_tr s.
Proof.
  intros Hp Hu. revert u. cut (ubok s s'); [by intros H; apply H|]. clear Hu. unfold wperform in Hp. destruct (w_ub s); [done|]. destruct a.
  - injection Hp as <-. eapply (ubok_cons _ _ (YFrame f)); [done|]. cbn. by rewrite ready_tr.
  - injection Hp as <-. eapply (ubok_cons _ _ (YState c)); [done|]. cbn. destruct c; [done|]. by rewrite ready_tr.
  - destruct (w_alive s); [|done]. injection Hp as <-. by eapply ubok_cons; [|reflexivity].
  - destruct (widle s); [|done]. destruct (w_in s) as [l|]; [|done]. destruct (perform ADeliver l) as [l'|]; [|done]. injection Hp as <-.
    eapply ubok_pre; [|apply ubok_back]. pre.
  - destruct (widle s); [|done]. destruct (w_in s) as [l|]; [destruct (perform ATick l) as [l'|]; [|done]|]; injection Hp as <-; by eapply ubok_cons; [|reflexivity].
  - destruct (widle s); [|done]. destruct (w_in s) as [l|]; [|done]. destruct (perform AFire l) as [l'|]; [|done]. injection Hp as <-.
    eapply ubok_pre; [|apply ubok_back]. pre.
  - destruct (w_user s); try done. injection Hp as <-. by eapply ubok_cons; [|reflexivity].
  - destruct (wruns s); [|done]. destruct (w_alive s); injection Hp as <-; [|by apply ubok_ub].
    destruct (w_pos s); [| | |by apply ubok_ub]; (eapply ubok_pre; [|apply ubok_resume]); pre.
  - destruct (wruns s); [|done]. injection Hp as <-. by eapply ubok_cons; [|reflexivity].
  - destruct (wruns s); [|done]. injection Hp as <-. by eapply ubok_cons; [|reflexivity].
Qed.
End outer.
