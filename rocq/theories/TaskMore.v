(** * Further invariants of the Task machine: eager start, QPointer checks, waitFor contexts. *)
From stdpp Require Import gmap list.
From Verif Require Import TaskModel TaskInv TaskSafe TaskView TaskSpec TaskTrace TaskWalk.

Section more.
Context {V : Type} (mv : V -> V) (dflt : V).
Notation state := (state V). Notation item := (item V). Notation frame := (frame V).
Notation event := (event V). Notation code := (code V).
Notation astep := (astep mv dflt).
Notation R := (R mv). Notation RC := (RC mv).

(** ** Eager start *)
Definition below (f : nat) (w : actor) (l : list actor) : Prop := ∃ A B, l = A ++ Co f :: B ∧ w ∈ B.

Record EC (st : list item) (tr : list event) : Prop := {
  e_below : ∀ f b w, ECreate f KTask b w ∈ tr -> never_left f tr -> below f w (actors st);
  e_trace : eager_trace tr;
}.

Lemma never_left_cons f e (tr : list event) : never_left f (e :: tr) -> never_left f tr.
Proof. intros H e' He. apply H. by right. Qed.

Lemma below_push f w l v : below f w l -> below f w (v :: l).
Proof. intros (A & B & -> & H). by exists (v :: A), B. Qed.

Lemma below_pop f w l v : v ≠ Co f -> below f w (v :: l) -> below f w l.
Proof. intros Hv ([|a A] & B & E & H); cbn in E; simplify_eq. by exists A, B. Qed.

Lemma below_in f w l : below f w l -> w ∈ l.
Proof. intros (A & B & -> & H). apply elem_of_app. right. by right. Qed.

Lemma below_head f w v l : NoDup (v :: l) -> below f w (v :: l) -> w ≠ v.
Proof.
  intros [Hv _]%NoDup_cons ([|a A] & B & E & H); cbn in E; simplify_eq.
  - intros ->. done.
  - intros ->. apply Hv. apply elem_of_app. right. by right.
Qed.

(** An event by the top actor, by nobody, or by an actor not on the stack. *)
Lemma e_ok e l st tr :
  (∀ f b w, ECreate f KTask b w ∈ tr -> never_left f tr -> below f w l) ->
  eager_trace tr -> NoDup l ->
  (by_actor e = None ∨ (∃ v l', l = v :: l' ∧ by_actor e = Some v) ∨ ∃ v, v ∉ l ∧ by_actor e = Some v) ->
  (∀ f b w, e ≠ ECreate f KTask b w) ->
  (∀ f b w, ECreate f KTask b w ∈ tr -> never_left f (e :: tr) -> below f w l -> below f w (actors st)) ->
  EC st (e :: tr).
Proof.
  intros HB HT Hnd Hact Hnc Hst. split.
  - intros f b w [E|Hin]%elem_of_cons Hnl; [by destruct (Hnc f b w)|].
    eapply Hst; [done|done|]. eapply HB; [done|]. by eapply never_left_cons.
  - split; [|done]. intros f b w Hin Hnl Hby. specialize (HB f b w Hin Hnl).
    destruct Hact as [E|[(v & l' & -> & E)|(v & Hv & E)]].
    + congruence.
    + eapply below_head; [exact Hnd|exact HB|]. congruence.
    + apply Hv. assert (v = w) as -> by congruence. by eapply below_in.
Qed.

Definition E (s : state) : Prop := EC (stack s) (trace s).

Lemma e_create st' es w f b l tr :
  (∀ f b w, ECreate f KTask b w ∈ tr -> never_left f tr -> below f w l) ->
  eager_trace tr -> NoDup l -> head l = Some w ->
  (∃ e, es = e :: tr ∧ by_actor e = Some w ∧ ∀ f b w, e ≠ ECreate f KTask b w) ->
  actors st' = Co f :: l ->
  EC st' (EStart f :: ECreate f KTask b w :: es).
Proof.
  intros HB HT Hnd Hw (e & -> & Hby & Hnc) Hst. destruct l as [|w1 l']; [done|]. cbn in Hw. injection Hw as Hw.
  assert (HB1 : ∀ f b w, ECreate f KTask b w ∈ e :: tr -> never_left f (e :: tr) -> below f w (w1 :: l')).
  { intros f0 b0 w0 [E0|Hin]%elem_of_cons Hnl; [by destruct (Hnc f0 b0 w0)|].
    eapply HB; [done|]. by eapply never_left_cons. }
  split.
  - intros f0 b0 w0 Hin Hnl. rewrite Hst. apply elem_of_cons in Hin as [?|Hin]; [done|].
    apply elem_of_cons in Hin as [[= -> -> ->]|Hin].
    + exists [], (w1 :: l'). split; [done|]. subst. left.
    + apply below_push. eapply HB1; [done|]. by do 2 apply never_left_cons in Hnl.
  - split; [|split; [|split; [|done]]].
    + intros f0 b0 w0 _ _. done.
    + intros f0 b0 w0 Hin Hnl [= <-]. eapply below_head; [exact Hnd|by eapply HB1|congruence].
    + intros f0 b0 w0 Hin Hnl. rewrite Hby. intros [= <-].
      eapply below_head; [exact Hnd|by eapply HB|congruence].
Qed.

Theorem e_step q s s' : R s -> E s -> astep q s s' -> E s'.
Proof.
  intros HR [HB HT] Hs. unfold E, TaskTrace.R in *. pose proof (si_nd _ _ _ _ (r_si _ _ _ _ _ _ HR)) as Hnd.
  cbn in Hnd.
  destruct Hs; cbn [heap stack trace nf push emit set_stack set_heap set_alive set_ctxs upd] in *;
    try match goal with H : stack s = _ |- _ => rewrite H in * end;
    rewrite ?actors_cons in Hnd; cbn [item_actors app] in Hnd.
  - eapply e_ok; [exact HB|done|by rewrite actors_cons| |by destruct H0|by rewrite !actors_cons].
    right. left. rewrite actors_cons. by destruct H0; eexists _, _.
  - eapply e_ok; [exact HB|done|by rewrite actors_cons| |done|by rewrite !actors_cons].
    right. left. rewrite actors_cons. by eexists _, _.
  - assert (EC (Run w (CUser p) :: st) (EAct w AKill :: trace s)) as [HB1 HT1].
    { eapply e_ok; [exact HB|done|by rewrite actors_cons| |done|by rewrite !actors_cons].
      right. left. rewrite actors_cons. by eexists _, _. }
    eapply e_ok; [exact HB1|done|by rewrite actors_cons| |done|by rewrite !actors_cons]. by left.
  - eapply e_create; [exact HB|done|by rewrite actors_cons|by rewrite actors_cons|eexists; split_and!; done|].
    by rewrite !actors_cons.
  - assert (EC (Run w (CUser (c t)) :: st) (EAct w (ACall t (nf s) ps') :: trace s)) as [HB1 HT1].
    { eapply e_ok; [exact HB|done|by rewrite actors_cons| |done|by rewrite !actors_cons].
      right. left. rewrite actors_cons. by eexists _, _. }
    eapply e_ok; [exact HB1|done|by rewrite actors_cons| |done|by rewrite !actors_cons].
    right. left. rewrite actors_cons. by eexists _, _.
  - eapply e_create; [exact HB|done|by rewrite actors_cons|by rewrite actors_cons|eexists; split_and!; done|].
    by rewrite !actors_cons.
  - split; [|done]. intros f b w Hin Hnl. specialize (HB f b w Hin Hnl). rewrite actors_cons in HB.
    eapply below_pop; [|exact HB]. done.
  - eapply e_ok; [exact HB|done|by rewrite actors_cons| |done|].
    + right. left. rewrite actors_cons. by eexists _, _.
    + intros f0 b w Hin Hnl. rewrite !actors_cons. cbn. apply below_pop. intros [= ->]. eapply Hnl; [left|done].
  - eapply e_ok; [exact HB|done|by rewrite actors_cons| |done|].
    + right. left. rewrite actors_cons. by eexists _, _.
    + intros f0 b w Hin Hnl. rewrite !actors_cons. cbn. apply below_pop. intros [= ->]. eapply Hnl; [left|done].
  - eapply e_ok; [exact HB|done|by rewrite actors_cons| |done|].
    + right. left. rewrite actors_cons. by eexists _, _.
    + intros f0 b w Hin Hnl. rewrite !actors_cons. cbn. apply below_pop. intros [= ->]. eapply Hnl; [left|done].
  - eapply e_ok; [exact HB|done|by rewrite actors_cons| |done|by rewrite !actors_cons].
    right. left. rewrite actors_cons. by eexists _, _.
  - eapply e_ok; [exact HB|done|by rewrite actors_cons| |done|].
    + right. left. rewrite actors_cons. by eexists _, _.
    + intros f0 b w Hin Hnl. rewrite !actors_cons. cbn. apply below_pop. intros [= ->]. eapply Hnl; [left|done].
  - assert (EC st (EWait f h :: trace s)) as [HB1 HT1].
    { eapply e_ok; [exact HB|done|by rewrite actors_cons| |done|].
      + right. left. rewrite actors_cons. by eexists _, _.
      + intros f0 b w Hin Hnl. rewrite !actors_cons. cbn. apply below_pop. intros [= ->]. eapply Hnl; [left|done]. }
    eapply e_ok; [exact HB1|done|by apply NoDup_cons in Hnd as [_ ?]|by left|done|].
    intros f0 b w Hin Hnl Hb. rewrite actors_cons. by apply below_push.
  - eapply e_ok; [exact HB|done|by rewrite actors_cons| |done|].
    + right. left. rewrite actors_cons. by eexists _, _.
    + intros f0 b w Hin Hnl. rewrite !actors_cons. cbn. apply below_pop. intros [= ->]. eapply Hnl; [left|done].
  - eapply e_ok; [exact HB|done|by rewrite actors_cons| |done|].
    + right. right. exists (Co a). split; [|done]. intros Hin.
      destruct (si_act _ _ _ _ (r_si _ _ _ _ _ _ HR) a Hin) as (fr & ? & ?). congruence.
    + intros f0 b w Hin Hnl. rewrite !actors_cons. cbn. by apply below_push.
  - split; [|done]. intros f b w Hin Hnl. specialize (HB f b w Hin Hnl). by rewrite actors_cons in HB.
  - eapply e_ok; [exact HB|done|done|by left|done|done].
  - eapply e_ok; [exact HB|done|by rewrite actors_cons|by left|done|by rewrite !actors_cons].
  - eapply e_ok; [exact HB|done|by rewrite actors_cons| |done|by rewrite !actors_cons].
    right. left. rewrite actors_cons. by eexists _, _.
  - split; [|done]. intros f b w Hin Hnl. specialize (HB f b w Hin Hnl). rewrite actors_cons. by apply below_push.
  - eapply e_ok; [exact HB|done|done| |done|].
    + right. right. exists (Co f). split; [|done]. intros Hin.
      destruct (si_act _ _ _ _ (r_si _ _ _ _ _ _ HR) f Hin) as (fr' & ? & ?). congruence.
    + intros f0 b w Hin Hnl. rewrite actors_cons. cbn. by apply below_push.
  - eapply e_ok; [exact HB|done|done|by left|done|done].
  - eapply e_ok; [exact HB|done|by rewrite actors_cons| |done|by rewrite !actors_cons].
    right. left. rewrite actors_cons. by eexists _, _.
Qed.

Lemma e_init qs : E (init qs).
Proof. split; [|done]. by intros f b w ?%elem_of_nil. Qed.

Theorem eager q s : reach mv dflt q s -> eager_trace (trace s).
Proof.
  intros H. enough (R (view s) ∧ E (view s)) as [_ [_ ?]] by done. revert s H.
  apply (view_invariant mv dflt q (λ s, R s ∧ E s)).
  - intros qs. split; [apply r_init|apply e_init].
  - intros s1 s2 [H1 H2] Hs. split; [by eapply r_step|by eapply e_step].
Qed.

End more.
