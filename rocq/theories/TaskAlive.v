(** * QPointer checks see the truth, and what follows them at once still sees it. *)
From stdpp Require Import gmap list.
From Verif Require Import TaskModel TaskInv TaskSafe TaskView TaskSpec TaskTrace TaskWalk.

Section alive.
Context {V : Type} (mv : V -> V) (dflt : V).
Notation state := (state V). Notation item := (item V). Notation frame := (frame V).
Notation event := (event V). Notation code := (code V).
Notation astep := (astep mv dflt).
Notation R := (R mv). Notation RC := (RC mv).

Definition is_obs (c : code) : Prop := match c with CUser (PObs _ _) => True | _ => False end.

Record AC (qs : gset nat) (al : gset nat) (st : list item) (tr : list event) : Prop := {
  al_eq : ∀ q, q ∈ al <-> alive_in qs q tr;
  al_top : ∀ f c q, (Co f, c) ∈ curs st -> is_obs c -> head (proj (Co f) tr) = Some (LAct (AAlive q true)) ->
    q ∈ al ∧ ∃ st', st = Run (Co f) c :: st';
  al_trace : alive_trace qs tr;
}.
Definition AL qs (s : state) : Prop := AC qs (alive s) (stack s) (trace s).

Definition no_kill (e : event) : Prop := match e with EKill _ => False | _ => True end.
Definition plain_event (e : event) : Prop :=
  match e with EKill _ | EObs _ _ | EAct _ (AAlive _ _) => False | _ => True end.

Lemma alive_in_cons qs q e (tr : list event) : no_kill e -> alive_in qs q (e :: tr) <-> alive_in qs q tr.
Proof.
  intros He. unfold alive_in. split; intros [H1 H2]; split; try done.
  - intros Hin. apply H2. by right.
  - intros [E|Hin]%elem_of_cons; [by rewrite <- E in He|done].
Qed.

(** Nothing on the stack is right after a successful QPointer check unless it is the top activation. *)
Lemma al_rest qs al i st tr f c q : AC qs al (i :: st) tr -> NoDup (actors (i :: st)) -> (Co f, c) ∈ curs st -> is_obs c ->
  head (proj (Co f) tr) ≠ Some (LAct (AAlive q true)).
Proof.
  intros [_ H2 _] Hnd Hc Ho Hh. destruct (H2 f c q) as [_ [st' E]]; [|done|done|].
  { rewrite curs_cons. apply elem_of_app. by right. }
  injection E as -> ->. rewrite actors_cons in Hnd. cbn in Hnd. apply NoDup_cons in Hnd as [Hnd _].
  apply Hnd. by eapply curs_actors.
Qed.

Lemma al_nontop qs al st tr f c q : AC qs al st tr ->
  (∀ w c st', st ≠ Run w c :: st') -> (Co f, c) ∈ curs st -> is_obs c ->
  head (proj (Co f) tr) ≠ Some (LAct (AAlive q true)).
Proof. intros [_ H2 _] Hst Hc Ho Hh. destruct (H2 f c q) as [_ [st' E]]; try done. by eapply Hst. Qed.

Lemma proj_other w e (tr : list event) : proj1 w e = [] -> proj w (e :: tr) = proj w tr.
Proof. intros H. rewrite proj_cons, H. done. Qed.

Lemma head_new w e l (tr : list event) : proj1 w e = [l] -> head (proj w (e :: tr)) = Some l.
Proof. intros H. rewrite proj_cons, H. done. Qed.

(** Stack and trace change, the set of live objects does not, and no check has just been made. *)
Lemma al_same qs al st st' tr es :
  AC qs al st tr -> Forall plain_event es ->
  (∀ f c q, (Co f, c) ∈ curs st' -> is_obs c -> head (proj (Co f) (es ++ tr)) ≠ Some (LAct (AAlive q true))) ->
  AC qs al st' (es ++ tr).
Proof.
  intros [H1 H2 H3] He Hst. split.
  - clear Hst. intros q. rewrite H1. induction He as [|e es He _ IH]; [done|]. cbn.
    rewrite alive_in_cons; [apply IH|by destruct e].
  - intros f c q Hc Ho Hh. by destruct (Hst f c q Hc Ho).
  - clear Hst. induction He as [|e es He _ IH]; [done|]. cbn. split; [|done].
    destruct e as [| | | | | | | | | | |? []| | | |]; done.
Qed.

(** The top activation of [w] moves. *)
Lemma al_move qs al i i' st tr es w :
  AC qs al (i :: st) tr -> NoDup (actors (i :: st)) ->
  item_actors i = [w] ->
  Forall plain_event es ->
  (∀ f, Co f ≠ w -> Co f ∈ actors st -> proj (Co f) es = []) ->
  (∀ f c q, (Co f, c) ∈ curs i' -> is_obs c -> head (proj (Co f) (es ++ tr)) ≠ Some (LAct (AAlive q true))) ->
  AC qs al (i' ++ st) (es ++ tr).
Proof.
  intros HA Hnd Hi He Hp Hc. eapply al_same; [exact HA|done|].
  intros f c0 q Hin Ho.
  assert (Hcase : (Co f, c0) ∈ curs i' ∨ (Co f, c0) ∈ curs st).
  { unfold curs in Hin. rewrite flat_map_app in Hin. by apply elem_of_app in Hin. }
  destruct Hcase as [Hin'|Hin']; [by eapply Hc|].
  rewrite proj_app. rewrite Hp; [by eapply al_rest| |by eapply curs_actors].
  intros <-. rewrite actors_cons, Hi in Hnd. cbn in Hnd. apply NoDup_cons in Hnd as [Hnd _].
  apply Hnd. by eapply curs_actors.
Qed.

Ltac pl := repeat (constructor; [done|]); constructor.
Ltac topne Hnd := let E := fresh in intros E; injection E as ->; rewrite actors_cons in Hnd; cbn in Hnd;
  apply NoDup_cons in Hnd as [Hnd _]; apply Hnd; by eapply curs_actors.
Notation W := (W dflt).

Theorem al_step qs q s s' : R s -> W s -> AL qs s -> astep q s s' -> AL qs s'.
Proof.
  intros HR HW HA Hs. unfold AL, TaskTrace.R in *. pose proof (si_nd _ _ _ _ (r_si _ _ _ _ _ _ HR)) as Hnd.
  cbn in Hnd. pose proof (si_act _ _ _ _ (r_si _ _ _ _ _ _ HR)) as Hact. cbn in Hact.
  destruct (w_fresh _ _ _ _ _ HW (nf s) (le_n _)) as [Hpn _].
  assert (Hnact : Co (nf s) ∉ actors (stack s)).
  { intros Hin. destruct (Hact _ Hin) as (fr & Hf & _).
    rewrite (si_bound _ _ _ _ (r_si _ _ _ _ _ _ HR) _ (le_n _)) in Hf. done. }
  destruct Hs; cbn [heap stack trace nf alive push emit set_stack set_heap set_alive set_ctxs upd] in *;
    try match goal with H : stack s = _ |- _ => rewrite H in * end.
  - (* act *)
    pose proof HA as HA0. destruct HA as [H1 H2 H3].
    assert (Hnk : no_kill e) by by destruct H0.
    assert (∃ l, proj1 w e = [l] ∧ ∀ q, l ≠ LAct (AAlive q true)) as (l & Hl & Hl').
    { destruct H0; eexists; (split; [cbn; by rewrite decide_True|done]). }
    assert (Ho : ∀ w', w' ≠ w -> proj1 w' e = []).
    { intros w' Hw'. destruct H0; cbn; by rewrite decide_False. }
    split.
    + intros qq. rewrite H1. by rewrite alive_in_cons.
    + intros f c qq Hc Hob Hh. exfalso. rewrite curs_cons in Hc. cbn in Hc. apply elem_of_cons in Hc as [[= <- ->]|Hc].
      * rewrite (head_new _ _ l) in Hh by done. injection Hh as ->. by eapply Hl'.
      * assert (Co f ≠ w) by (intros <-; rewrite actors_cons in Hnd; cbn in Hnd;
          apply NoDup_cons in Hnd as [Hnd _]; apply Hnd; by eapply curs_actors).
        rewrite proj_other in Hh by auto. by eapply al_rest.
    + split; [|done]. destruct H0; try done. destruct w as [f|]; [|done].
      intros qq Hh. apply H1. destruct (H2 f (CUser (PObs o p)) qq) as [? _]; [left|done|done|done].
  - (* alive *)
    pose proof HA as HA0. destruct HA as [H1 H2 H3]. split.
    + intros q0. rewrite H1. by rewrite alive_in_cons.
    + intros f c0 q0 Hc Hob Hh. rewrite curs_cons in Hc. cbn in Hc. apply elem_of_cons in Hc as [[= <- ->]|Hc].
      * rewrite (head_new _ _ (LAct (AAlive qq (bool_decide (qq ∈ alive s))))) in Hh by (cbn; by rewrite decide_True).
        injection Hh as -> Hb. apply bool_decide_eq_true in Hb. eauto.
      * exfalso. assert (Co f ≠ w) by (intros <-; rewrite actors_cons in Hnd; cbn in Hnd;
          apply NoDup_cons in Hnd as [Hnd _]; apply Hnd; by eapply curs_actors).
        rewrite proj_other in Hh by (cbn; by rewrite decide_False). by eapply al_rest.
    + split; [|done]. rewrite bool_decide_eq_true. apply H1.
  - (* kill *)
    pose proof HA as HA0. destruct HA as [H1 H2 H3]. split.
    + intros q0. rewrite elem_of_difference, H1, not_elem_of_singleton. unfold alive_in. split.
      * intros [[? ?] ?]. split; [done|]. intros Hin. apply elem_of_cons in Hin as [[= ->]|Hin]; [done|].
        apply elem_of_cons in Hin as [?|Hin]; done.
      * intros [? Hn]. split_and!; [done|intros ?; apply Hn; by right; right|]. intros ->. apply Hn. left.
    + intros f c0 q0 Hc Hob Hh. exfalso. rewrite proj_other in Hh by done.
      rewrite curs_cons in Hc. cbn in Hc. apply elem_of_cons in Hc as [[= <- ->]|Hc].
      * rewrite (head_new _ _ (LAct AKill)) in Hh by (cbn; by rewrite decide_True). done.
      * assert (Co f ≠ w) by (intros <-; rewrite actors_cons in Hnd; cbn in Hnd;
          apply NoDup_cons in Hnd as [Hnd _]; apply Hnd; by eapply curs_actors).
        rewrite proj_other in Hh by (cbn; by rewrite decide_False). by eapply al_rest.
    + done.
  - (* call *)
    eapply (al_move _ _ _ [_; _] _ _ [_; _; _] w); [exact HA|done|done|pl| |].
    + intros f Hf _. cbn. by rewrite decide_False.
    + intros f c0 q0 Hc Hob Hh. rewrite !curs_cons in Hc. cbn in Hc.
      apply elem_of_cons in Hc as [[= -> ->]|Hc].
      * rewrite proj_app, Hpn, app_nil_r in Hh. cbn in Hh. rewrite decide_False in Hh; [done|].
        intros <-. apply Hnact. rewrite actors_cons. left.
      * apply elem_of_cons in Hc as [[= <- ->]|Hc]; [|by apply elem_of_nil in Hc].
        cbn in Hh. by rewrite decide_True in Hh.
  - (* lazy call *)
    eapply (al_move _ _ _ [_] _ _ [_; _] w); [exact HA|done|done|pl| |].
    + intros f Hf _. cbn. by rewrite decide_False.
    + intros f c0 q0 Hc Hob Hh. rewrite !curs_cons in Hc. cbn in Hc.
      apply elem_of_cons in Hc as [[= <- ->]|Hc]; [|by apply elem_of_nil in Hc].
      cbn in Hh. by rewrite decide_True in Hh.
  - (* waitFor *)
    eapply (al_move _ _ _ [_; _] _ _ [_; _; _] w); [exact HA|done|done|pl|done|].
    intros f c0 q0 Hc Hob Hh. rewrite !curs_cons in Hc. cbn in Hc.
    apply elem_of_cons in Hc as [[= -> ->]|Hc]; [done|].
    apply elem_of_cons in Hc as [[= <- ->]|Hc]; [done|by apply elem_of_nil in Hc].
  - eapply (al_move _ _ _ [] _ _ [] (Plain n)); [exact HA|done|done|constructor|done|].
    by intros f c0 q0 ?%elem_of_nil.
  - eapply (al_move _ _ _ [_] _ _ [_] (Co f)); [exact HA|done|done|pl| |].
    + intros g Hg _. cbn. by rewrite decide_False.
    + intros g c0 q0 Hc. by apply elem_of_nil in Hc.
  - eapply (al_move _ _ _ [_] _ _ [_] (Co f)); [exact HA|done|done|pl| |].
    + intros g Hg _. cbn. by rewrite decide_False.
    + intros g c0 q0 Hc. by apply elem_of_nil in Hc.
  - eapply (al_move _ _ _ [] _ _ [_] (Co f)); [exact HA|done|done|pl|done|].
    by intros g c0 q0 ?%elem_of_nil.
  - eapply (al_move _ _ _ [_] _ _ [_] (Co f)); [exact HA|done|done|pl| |].
    + intros g Hg _. cbn. by rewrite decide_False.
    + intros g c0 q0 Hc Hob Hh. rewrite !curs_cons in Hc. cbn in Hc.
      apply elem_of_cons in Hc as [[= -> ->]|Hc]; [|by apply elem_of_nil in Hc].
      cbn in Hh. by rewrite decide_True in Hh.
  - eapply (al_move _ _ _ [] _ _ [_] (Co f)); [exact HA|done|done|pl|done|].
    by intros g c0 q0 ?%elem_of_nil.
  - eapply (al_move _ _ _ [_] _ _ [_; _] (Co f)); [exact HA|done|done|pl|done|].
    intros g c0 q0 Hc Hob Hh. rewrite !curs_cons in Hc. cbn in Hc.
    apply elem_of_cons in Hc as [[= -> ->]|Hc]; [|by apply elem_of_nil in Hc].
    cbn in Hh. destruct (rl_at _ _ _ _ _ (r_loc _ _ _ _ _ _ HR h) H2) as (_ & _ & b & w & Hcr).
    destruct (w_all _ _ _ _ _ HW h _ _ _ Hcr) as [Hws _]. rewrite H2 in Hws. cbn in Hws. rewrite H3 in Hws.
    cbn in Hws. destruct Hws as [_ Hws]. change (flat_map (proj1 (Co h)) (trace s)) with (proj (Co h) (trace s)) in Hh.
    by rewrite Hws in Hh.
  - eapply (al_move _ _ _ [] _ _ [_] (Co f)); [exact HA|done|done|pl|done|].
    by intros g c0 q0 ?%elem_of_nil.
  - eapply (al_same _ _ _ _ _ [_]); [exact HA|pl|].
    intros g c0 q0 Hc Hob Hh. rewrite !curs_cons in Hc. cbn in Hc.
    apply elem_of_cons in Hc as [[= -> ->]|Hc].
    + cbn in Hh. by rewrite decide_True in Hh.
    + assert (g ≠ a). { intros ->. apply curs_actors in Hc. destruct (Hact a) as (fr & ? & ?); [by rewrite actors_cons|]. congruence. }
      cbn in Hh. rewrite decide_False in Hh by congruence. eapply al_nontop; [exact HA|done|exact Hc|done|exact Hh].
  - eapply (al_same _ _ _ _ _ []); [exact HA|constructor|].
    intros g c0 q0 Hc Hob Hh. eapply al_nontop; [exact HA|done|exact Hc|done|exact Hh].
  - destruct HA as [H1' H2' H3']. split.
    + intros q0. rewrite H1'. by rewrite alive_in_cons.
    + exact H2'.
    + done.
  - eapply (al_same _ _ _ _ _ [_]); [exact HA|pl|].
    intros g c0 q0 Hc Hob Hh. eapply al_nontop; [exact HA|done|exact Hc|done|exact Hh].
  - eapply (al_move _ _ _ [_] _ _ [_] w); [exact HA|done|done|pl| |].
    + intros g Hg _. cbn. by rewrite decide_False.
    + intros g c0 q0 Hc Hob Hh. rewrite !curs_cons in Hc. cbn in Hc.
      apply elem_of_cons in Hc as [[= <- ->]|Hc]; [|by apply elem_of_nil in Hc].
      cbn in Hh. by rewrite decide_True in Hh.
  - eapply (al_same _ _ _ _ _ []); [exact HA|constructor|].
    intros g c0 q0 Hc Hob Hh. rewrite curs_cons in Hc. cbn in Hc. apply elem_of_cons in Hc as [?|Hc]; [done|].
    eapply al_nontop; [exact HA| |exact Hc|done|exact Hh].
    intros w0 c1 st' E. by rewrite E in H.
  - eapply (al_same _ _ _ _ _ [_]); [exact HA|pl|].
    intros g c0 q0 Hc Hob Hh. rewrite !curs_cons in Hc. cbn in Hc.
    apply elem_of_cons in Hc as [[= -> ->]|Hc].
    + cbn in Hh. by rewrite decide_True in Hh.
    + assert (g ≠ f). { intros ->. apply curs_actors in Hc. destruct (Hact f Hc) as (fr' & ? & ?). congruence. }
      cbn in Hh. rewrite decide_False in Hh by congruence. eapply al_nontop; [exact HA| |exact Hc|done|exact Hh].
      intros w0 c1 st' E. by rewrite E in H.
  - destruct HA as [H1' H2' H3']. split.
    + intros q0. rewrite elem_of_difference, H1', not_elem_of_singleton. unfold alive_in. split.
      * intros [[? ?] ?]. split; [done|]. intros Hin. apply elem_of_cons in Hin as [[= ->]|Hin]; done.
      * intros [? Hn]. split_and!; [done|intros ?; apply Hn; by right|]. intros ->. apply Hn. left.
    + intros f c0 q0 Hc Hob Hh. exfalso. destruct (H2' f c0 q0 Hc Hob Hh) as [_ [st' E]]. by rewrite E in H.
    + done.
  - eapply (al_move _ _ _ [_] _ _ [_] w); [exact HA|done|done|pl| |].
    + intros g Hg _. cbn. by rewrite decide_False.
    + intros g c0 q0 Hc Hob Hh. rewrite !curs_cons in Hc. cbn in Hc.
      apply elem_of_cons in Hc as [[= <- ->]|Hc]; [|by apply elem_of_nil in Hc].
      cbn in Hh. by rewrite decide_True in Hh.
Qed.

Lemma al_init qs : AL qs (init qs).
Proof.
  split; [|by intros f c q ?%elem_of_nil|done].
  intros q. cbn. unfold alive_in. split; [|by intros [? _]]. intros Hq. split; [done|]. by intros ?%elem_of_nil.
Qed.

Theorem alive_reach q qs s : exec mv dflt q (init qs) s ->
  alive_trace qs (trace s) ∧ ∀ o, o ∈ alive s <-> alive_in qs o (trace s).
Proof.
  intros H. enough ((R (view s) ∧ W (view s)) ∧ AL qs (view s)) as [_ [? ? ?]] by done. revert s H.
  apply (view_invariant_from mv dflt q qs (λ s, (R s ∧ W s) ∧ AL qs s)).
  - split; [split; [apply r_init|apply w_init]|apply al_init].
  - intros s1 s2 [[H1 H2] H3] Hs. split; [split|]; [by eapply r_step|by eapply w_step|by eapply al_step].
Qed.
End alive.
