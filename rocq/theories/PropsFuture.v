(** * Properties of co_await QFuture: C42, C84-C87. The model is FutureModel.v, the vocabulary FutureSpec.v. *)
From stdpp Require Import list option.
From Verif Require Import FutureModel FutureSpec.

Definition aw_ok (i : nat) (tr : list fev) (x : awst) : Prop :=
  match x with
  | AIdle => asked i tr = None ∧ answered i tr = false ∧ blocked i tr = false
  | AChecked k => asked i tr = Some k ∧ answered i tr = false ∧ blocked i tr = false
  | AWatch k => asked i tr = Some k ∧ answered i tr = false ∧ finished tr = false ∧ blocked i tr = false
  | APosted k => asked i tr = Some k ∧ answered i tr = false ∧ finished tr = true ∧ blocked i tr = false
  | ABlocked k => asked i tr = Some k ∧ answered i tr = false ∧ canceled tr = true ∧ blocked i tr = true
  | AGone b => asked i tr ≠ None ∧ answered i tr = true ∧ b = finished tr
  | ADone => asked i tr ≠ None ∧ answered i tr = true
  end.
Record finv (s : fstate) : Prop := {
  v_fin : f_fin s = finished (f_tr s);
  v_can : f_can s = canceled (f_tr s) || bool_decide (is_Some (raised (f_tr s)));
  v_res : f_res s = reported (f_tr s);
  v_exc : f_exc s = raised (f_tr s);
  v_one : reported (f_tr s) = None ∨ raised (f_tr s) = None;
  v_tak : f_taken s = taken (f_tr s);
  v_aw : ∀ i, aw_ok i (f_tr s) (f_aw s i) }.

(** Events that concern only [i], or nobody. *)
Definition of_awaiter (e : fev) : option nat :=
  match e with FEAwait i _ | FESuspend i | FEReturn i _ | FEThrow i _ | FEBlock i | FEUndef i | FEDestroy i | FEStale i => Some i | _ => None end.
Lemma other_ok e i j tr x : of_awaiter e = Some i -> j ≠ i -> aw_ok j tr x -> aw_ok j (e :: tr) x.
Proof.
  intros He Hne. assert (finished (e :: tr) = finished tr) as Hf by (by destruct e). assert (canceled (e :: tr) = canceled tr) as Hc by (by destruct e).
  assert (asked j (e :: tr) = asked j tr) as Ha. { destruct e; try done. cbn. injection He as <-. by rewrite decide_False by congruence. }
  assert (answered j (e :: tr) = answered j tr) as Hb.
  { cbn. destruct e; cbn; try done; injection He as <-; by rewrite bool_decide_eq_false_2 by congruence. }
  assert (blocked j (e :: tr) = blocked j tr) as Hd.
  { destruct e; cbn; try done; injection He as <-; by rewrite bool_decide_eq_false_2 by congruence. }
  destruct x; unfold aw_ok; rewrite ?Hf, ?Hc, ?Ha, ?Hb, ?Hd; done.
Qed.
(** A step of [i] that only adds an event of [i] and does not take the result. *)
Lemma inv_awaiter s i e x : finv s -> of_awaiter e = Some i -> (∀ r, e ≠ FEReturn i r) ∨ asked i (f_tr s) ≠ Some KTake -> aw_ok i (e :: f_tr s) x -> finv (say e (put i x s)).
Proof.
  intros [H1 H2 H3 H4 H5 H6 H7] He Hr Hx. 
  assert (finished (e :: f_tr s) = finished (f_tr s) ∧ canceled (e :: f_tr s) = canceled (f_tr s) ∧ reported (e :: f_tr s) = reported (f_tr s) ∧ raised (e :: f_tr s) = raised (f_tr s)) as (G1 & G2 & G3 & G4) by (by destruct e).
  assert (taken (e :: f_tr s) = taken (f_tr s)) as G5.
  { destruct e; try done. injection He as <-. cbn. destruct Hr as [Hr|Hr]; [by destruct (Hr r)|]. by destruct (asked i0 (f_tr s)) as [[]|]. }
  split; change (f_tr (say e (put i x s))) with (e :: f_tr s); rewrite ?G1, ?G2, ?G3, ?G4, ?G5; try done.
  intros j. cbn [say put f_aw]. destruct (decide (j = i)) as [->|Hne]; [done|]. eapply other_ok; try done.
Qed.
Lemma inv_take s i v : finv s -> asked i (f_tr s) = Some KTake -> finv (take (say (FEReturn i (Some v)) (put i ADone s))).
Proof.
  intros [H1 H2 H3 H4 H5 H6 H7] Ha. split; try done.
  - cbn. by rewrite Ha.
  - intros j. cbn [take say put f_aw f_tr]. destruct (decide (j = i)) as [->|Hne]; [|by eapply other_ok]. cbn.
    rewrite bool_decide_eq_true_2 by done. split; [congruence|done].
Qed.
Lemma inv_resume s i k : finv s -> asked i (f_tr s) = Some k -> (obtain k s = None -> canceled (f_tr s) = true ∧ answered i (f_tr s) = false) -> finv (resume i k s).
Proof.
  intros Hi Ha Hc. unfold resume.
  destruct (obtain k s) as [[t e]|] eqn:E.
  - assert (∃ y, e i = FEUndef i ∨ e i = FEThrow i y ∨ (e i = FEReturn i (Some y) ∧ (t = true ↔ k = KTake)) ∨ (e i = FEReturn i None ∧ t = false ∧ k = KVoid)) as [y Hy].
    { unfold obtain in E. destruct (f_exc s) as [e'|]; [injection E as <- <-; exists e'; auto|].
      destruct k.
      - destruct (f_res s) as [v|].
        + injection E as <- <-. exists v. destruct (f_taken s); naive_solver.
        + destruct (f_fin s); [|done]. injection E as <- <-. exists 0. auto.
      - destruct (f_fin s); [|done]. injection E as <- <-. exists 0. auto 8.
      - destruct (f_fin s); [|done]. destruct (f_res s) as [v|]; [destruct (f_taken s)|]; injection E as <- <-; [exists v..|exists 0]; naive_solver. }
    assert (t = true -> e i = FEReturn i (Some y) ∧ k = KTake) as Ht.
    { intros ->. assert (k = KTake) as ->.
      { unfold obtain in E. destruct (f_exc s); [done|]. destruct k; [..|done].
        - destruct (f_res s); [done|]. by destruct (f_fin s).
        - by destruct (f_fin s). }
      split; [|done]. unfold obtain in E. destruct (f_exc s); [done|]. destruct (f_fin s); [|done]. destruct (f_res s) as [v|]; [|done].
      destruct (f_taken s); [done|]. injection E as <-. destruct Hy as [Hy|[Hy|[[Hy _]|[Hy _]]]]; congruence. }
    destruct t; cbn zeta.
    + destruct (Ht eq_refl) as [-> ->]. by apply inv_take.
    + assert (aw_ok i (e i :: f_tr s) ADone) as Hok.
      { destruct Hy as [->|[->|[[-> _]|[-> _]]]]; cbn; rewrite bool_decide_eq_true_2 by done; (split; [congruence|done]). }
      apply inv_awaiter; [done| | |done].
      * by destruct Hy as [->|[->|[[-> _]|[-> _]]]].
      * destruct Hy as [->|[->|[[-> Hk]|(-> & _ & ->)]]]; [left; done|left; done| |right; congruence].
        right. intros Hk'. assert (k = KTake) as -> by congruence. destruct Hk as [_ Hk]. by discriminate Hk.
  - apply inv_awaiter; [done|done|left; done|]. destruct (Hc eq_refl) as [Hc1 Hc2]. cbn. rewrite bool_decide_eq_true_2 by done. done.
Qed.

(** Events of the future itself. *)
Lemma global_ok e j tr x : of_awaiter e = None -> aw_ok j tr x -> aw_ok j (e :: tr) (match e with FEFinish => notify x | _ => x end).
Proof.
  intros He H. destruct e; try done; destruct x as [|k|k|k|k|b|]; cbn in *; try done; try (destruct H as (?&?&?&?); by split_and!).
  by destruct H as (?&?&?).
Qed.

Lemma obtain_fin k s : f_fin s = true -> obtain k s ≠ None.
Proof. unfold obtain. intros ->. destruct (f_exc s); [done|]. destruct k; [..|destruct (f_res s)]; try done; [by destruct (f_res s)|by destruct (f_taken s)]. Qed.

Lemma finv_step s s' x : finv s -> fperform x s = Some s' -> finv s'.
Proof.
  intros Hi Hp. pose proof Hi as [H1 H2 H3 H4 H5 H6 H7]. destruct x as [i k|i|i|i|i|v|e| |]; cbn in Hp.
  - specialize (H7 i) as Hw. destruct (f_aw s i); try done. injection Hp as <-. cbn in Hw. destruct Hw as (Hw1 & Hw2 & Hw3).
    assert (finv (say (FEAwait i k) (put i (AChecked k) s))) as Ha.
    { apply inv_awaiter; [done|done|left; done|]. cbn. by rewrite decide_True. }
    destruct (f_fin s || f_can s) eqn:E; [|exact Ha].
    assert (finv (resume i k (say (FEAwait i k) (put i (AChecked k) s)))) as Hb.
    { apply inv_resume; [done|cbn; by rewrite decide_True|]. intros Ho. cbn. split; [|done].
      destruct (f_fin s) eqn:Ef; [by destruct (obtain_fin k (say (FEAwait i k) (put i (AChecked k) s)))|].
      cbn in E. rewrite H2 in E. destruct (canceled (f_tr s)); [done|]. cbn in E. apply bool_decide_eq_true in E as [y Hy].
      rewrite <- H4 in Hy. unfold obtain in Ho. cbn in Ho. by rewrite Hy in Ho. }
    (* the intermediate state of the awaiter does not matter *)
    set (r1 := resume i k (say (FEAwait i k) (put i (AChecked k) s))) in *. set (r2 := resume i k (say (FEAwait i k) s)).
    assert (f_fin r2 = f_fin r1 ∧ f_can r2 = f_can r1 ∧ f_res r2 = f_res r1 ∧ f_exc r2 = f_exc r1 ∧ f_taken r2 = f_taken r1 ∧ f_tr r2 = f_tr r1 ∧ ∀ j, f_aw r2 j = f_aw r1 j)
      as (G1 & G2 & G3 & G4 & G5 & G6 & G7).
    { subst r1 r2. unfold resume. change (obtain k (say (FEAwait i k) (put i (AChecked k) s))) with (obtain k (say (FEAwait i k) s)).
      destruct (obtain k (say (FEAwait i k) s)) as [[[] e]|]; split_and!; try done; intros j; cbn; by destruct (decide (j = i)). }
    destruct Hb as [J1 J2 J3 J4 J5 J6 J7]. split; rewrite ?G1, ?G2, ?G3, ?G4, ?G5, ?G6; try done. intros j. rewrite G7. apply J7.
  - specialize (H7 i) as Hw. destruct (f_aw s i) as [|k| | | | |]; try done. injection Hp as <-. destruct Hw as (Hw1 & Hw2 & Hw3).
    apply inv_awaiter; [done|done|left; done|]. rewrite H1. destruct (finished (f_tr s)) eqn:E; cbn; by split_and!.
  - specialize (H7 i) as Hw. destruct (f_aw s i) as [| | |k| |[]|]; try done; injection Hp as <-.
    + destruct Hw as (Hw1 & Hw2 & Hw3 & Hw4). apply inv_resume; [done|done|]. intros Ho. exfalso. by apply (obtain_fin k s); [rewrite H1|].
    + destruct Hw as (Hw1 & Hw2 & Hw3). apply inv_awaiter; [done|done|left; done|]. cbn. rewrite bool_decide_eq_true_2 by done. done.
  - specialize (H7 i) as Hw. destruct (f_aw s i) as [| | | |k| |]; try done. destruct (obtain k s) eqn:E; [|done]. injection Hp as <-.
    destruct Hw as (Hw1 & Hw2 & Hw3 & Hw4). apply inv_resume; [done|done|]. congruence.
  - specialize (H7 i) as Hw. destruct (f_aw s i) as [| |k|k| | |]; try done; injection Hp as <-; destruct Hw as (Hw1 & Hw2 & Hw3 & Hw4);
      (apply inv_awaiter; [done|done|left; done|]); cbn; rewrite bool_decide_eq_true_2 by done; split_and!; done || congruence.
  - destruct (f_fin s || f_can s) eqn:E; [done|]. destruct (f_res s) eqn:Er; [done|]. injection Hp as <-. apply orb_false_iff in E as [E1 E2]. rewrite H2 in E2.
    apply orb_false_iff in E2 as [E2 E3]. apply bool_decide_eq_false in E3. rewrite <- eq_None_not_Some in E3.
    split; cbn; [done|done|done|done|by right|done|]. intros j. by apply (global_ok (FEReport v)).
  - destruct (f_fin s || f_can s) eqn:E; [done|]. destruct (f_res s) eqn:Er; [done|]. injection Hp as <-. apply orb_false_iff in E as [E1 E2]. 
    split; cbn; try done.
    + symmetry. apply orb_true_r.
    + left. by rewrite <- H3.
  - injection Hp as <-. by split; cbn; try done; intros j; apply (global_ok FECancel).
  - destruct (f_fin s) eqn:E; [done|]. injection Hp as <-. by split; cbn; try done; intros j; apply (global_ok FEFinish).
Qed.
Lemma freach_inv s : freach s -> finv s.
Proof. induction 1 as [|s s' x Hr IH Hp]; [by split; try (left; done)|]. by eapply finv_step. Qed.

(** A step adds the events below, and [resume] one event. *)
Lemma resume_ev s i k : ∃ e, f_tr (resume i k s) = e :: f_tr s ∧ f_fin (resume i k s) = f_fin s ∧ f_can (resume i k s) = f_can s
  ∧ match obtain k s with Some (_, f) => e = f i | None => e = FEBlock i end.
Proof. unfold resume. destruct (obtain k s) as [[[] f]|]; eexists; split_and!; reflexivity. Qed.
(** What [obtain] yields, in terms of the trace. *)
Lemma obtain_spec s k i : finv s -> match obtain k s with
  | Some (_, f) => (∃ x, f i = FEThrow i x ∧ raised (f_tr s) = Some x) ∨
      (raised (f_tr s) = None ∧
       ((k = KVoid ∧ f i = FEReturn i None ∧ finished (f_tr s) = true) ∨
        (k ≠ KVoid ∧ (k = KTake -> finished (f_tr s) = true) ∧ ∃ v, f i = FEReturn i (Some v) ∧ reported (f_tr s) = Some v ∧ taken (f_tr s) = false) ∨
        (k ≠ KVoid ∧ f i = FEUndef i ∧ (taken (f_tr s) = true ∨ finished (f_tr s) = true ∧ reported (f_tr s) = None))))
  | None => finished (f_tr s) = false ∧ raised (f_tr s) = None
  end.
Proof.
  intros [H1 H2 H3 H4 H5 H6 H7]. unfold obtain. rewrite <- H1, <- H3, <- H4, <- H6. destruct (f_exc s) as [e|]; [left; eauto|].
  destruct k.
  - destruct (f_res s) as [v|]; [|destruct (f_fin s); [|done]].
    + right. split; [done|]. right. destruct (f_taken s); [right; split_and!; auto|left; split_and!; eauto; done].
    + right. split; [done|]. right. right. split_and!; auto.
  - destruct (f_fin s); [|done]. right. auto.
  - destruct (f_fin s); [|done]. destruct (f_res s) as [v|]; [destruct (f_taken s)|]; right; (split; [done|]); right; [right|left|right]; split_and!; eauto; done.
Qed.

(** ** C42 *)

(** Every co_await is answered at most once; it returns the result that was reported, or throws the exception; unless the future was canceled, only
    after it has finished (or the exception was reported); awaiting blocks, or is undefined, only if the future was canceled, its result was taken or it finished without one. *)
Definition obtained (i : nat) (e : fev) (tr : list fev) : Prop :=
  ∃ k, waits i k tr ∧
  match e with
  | FEReturn _ r => raised tr = None ∧ match k with KVoid => r = None ∧ finished tr = true | _ => ∃ v, r = Some v ∧ reported tr = Some v ∧ taken tr = false end
      ∧ (canceled tr = false -> finished tr = true)
  | FEThrow _ x => raised tr = Some x
  | FEBlock _ => canceled tr = true ∧ finished tr = false
  | FEUndef _ => k ≠ KVoid ∧ (taken tr = true ∨ finished tr = true ∧ reported tr = None)
  | _ => True
  end.
Lemma resume_obtained s i k : finv s -> waits i k (f_tr s) -> (f_fin s || f_can s) = true -> ∀ e, f_tr (resume i k s) = e :: f_tr s -> of_awaiter e = Some i ∧ obtained i e (f_tr s) ∧ match e with FEReturn _ _ | FEThrow _ _ | FEBlock _ | FEUndef _ => True | _ => False end.
Proof.
  intros Hi Hw Hf e He. destruct (resume_ev s i k) as (e' & He' & _ & _ & Hx). rewrite He in He'. injection He' as <-.
  pose proof (obtain_spec s k i Hi) as Ho. pose proof Hi as [H1 H2 _ _ _ _ _].
  assert (raised (f_tr s) = None -> canceled (f_tr s) = false -> finished (f_tr s) = true) as Hc.
  { intros Hr Hc. rewrite H1, H2, Hc, Hr in Hf. cbn in Hf. by destruct (finished _). }
  destruct (obtain k s) as [[t f]|].
  - subst e. destruct Ho as [(x & -> & Hr)|(Hr & [(-> & -> & Hfi)|[(Hk & Hkt & v & -> & Hv & Ht)|(Hk & -> & Hu)]])]; (split; [done|]); (split; [|done]); exists k || exists KVoid; (split; [done|]).
    + done.
    + auto.
    + split; [done|]. split; [|auto]. destruct k; eauto; done.
    + auto.
  - subst e. split; [done|]. split; [|done]. exists k. split; [done|]. split; [|apply Ho]. destruct Ho as [Ho1 Ho2].
    destruct (canceled (f_tr s)) eqn:E; [done|]. by rewrite Hc in Ho1.
Qed.
Definition step_ok (tr : list fev) (e : fev) : Prop :=
  match e with
  | FEReturn i _ | FEThrow i _ | FEBlock i | FEUndef i => obtained i e tr
  | FEAwait i _ => asked i tr = None
  | FESuspend i => ∃ k, waits i k tr
  | FEDestroy i => ∃ k, waits i k tr
  | FEStale i => answered i tr = true ∧ finished tr = true
  | _ => True
  end.
(** A step adds one event, or two: co_await that does not suspend. *)
Lemma step_events s s' x : freach s -> fperform x s = Some s' ->
  (∃ e, f_tr s' = e :: f_tr s ∧ step_ok (f_tr s) e) ∨
  (∃ i k e, x = FAwait i k ∧ f_tr s' = e :: FEAwait i k :: f_tr s ∧ step_ok (f_tr s) (FEAwait i k) ∧ step_ok (FEAwait i k :: f_tr s) e).
Proof.
  intros Hr Hp. pose proof (freach_inv _ Hr) as Hi. pose proof Hi as [H1 H2 H3 H4 H5 H6 H7].
  destruct x as [i k|i|i|i|i|v|e| |]; cbn in Hp.
  - specialize (H7 i). destruct (f_aw s i) eqn:Ea; try done. destruct H7 as (Hw1 & Hw2 & Hw3). injection Hp as <-.
    destruct (f_fin s || f_can s) eqn:E; [right|left; eexists; split; [reflexivity|done]].
    destruct (resume_ev (say (FEAwait i k) s) i k) as (e & He & _). exists i, k, e. split; [done|]. split; [done|]. split; [done|].
    assert (finv (say (FEAwait i k) (put i (AChecked k) s))) as Hi'.
    { apply inv_awaiter; [done|done|left; done|]. cbn. by rewrite decide_True. }
    destruct (resume_obtained (say (FEAwait i k) (put i (AChecked k) s)) i k Hi') with (e := e) as (Ha & Hb & Hc).
    { split; cbn; [by rewrite decide_True|done]. } { done. }
    { change (f_tr (say (FEAwait i k) (put i (AChecked k) s))) with (f_tr (say (FEAwait i k) s)). rewrite <- He. unfold resume. change (obtain k (say (FEAwait i k) (put i (AChecked k) s))) with (obtain k (say (FEAwait i k) s)).
      by destruct (obtain k (say (FEAwait i k) s)) as [[[] ?]|]. }
    destruct e; try done; injection Ha as ->; done.
  - left. specialize (H7 i). destruct (f_aw s i) as [|k| | | | |] eqn:Ea; try done. injection Hp as <-. eexists. split; [reflexivity|]. exists k. split; apply H7.
  - left. specialize (H7 i). destruct (f_aw s i) as [| | |k| |[]|] eqn:Ea; try done; injection Hp as <-.
    + destruct (resume_ev s i k) as (e & He & _). exists e. split; [done|]. destruct H7 as (Hw1 & Hw2 & Hw3 & Hw4).
      destruct (resume_obtained s i k Hi) with (e := e) as (Ha & Hb & Hc); [by split|by rewrite H1, Hw3|done|]. destruct e; try done; injection Ha as ->; done.
    + eexists. split; [reflexivity|]. destruct H7 as (_ & ? & ?). by split.
  - left. specialize (H7 i). destruct (f_aw s i) as [| | | |k| |] eqn:Ea; try done. destruct (obtain k s) eqn:Eo; [|done]. injection Hp as <-.
    destruct (resume_ev s i k) as (e & He & _). exists e. split; [done|]. destruct H7 as (Hw1 & Hw2 & Hw3 & Hw4).
    destruct (resume_obtained s i k Hi) with (e := e) as (Ha & Hb & Hc); [by split|rewrite H2, Hw3; by destruct (f_fin s)|done|]. destruct e; try done; injection Ha as ->; done.
  - left. specialize (H7 i). destruct (f_aw s i) as [| |k|k| | |] eqn:Ea; try done; injection Hp as <-; eexists; (split; [reflexivity|]); exists k; split; apply H7.
  - left. destruct (f_fin s || f_can s); [done|]. destruct (f_res s); [done|]. injection Hp as <-. eexists. by split; [reflexivity|].
  - left. destruct (f_fin s || f_can s); [done|]. destruct (f_res s); [done|]. injection Hp as <-. eexists. by split; [reflexivity|].
  - left. injection Hp as <-. eexists. by split; [reflexivity|].
  - left. destruct (f_fin s); [done|]. injection Hp as <-. eexists. by split; [reflexivity|].
Qed.
Theorem trace_ok s t2 e t1 : freach s -> f_tr s = t2 ++ e :: t1 -> step_ok t1 e.
Proof.
  intros Hr. revert t2 e t1. induction Hr as [|s s' x Hr IH Hp]; intros t2 e t1 Ht; [by destruct t2|].
  destruct (step_events _ _ _ Hr Hp) as [(e' & He & Hs)|(i & k & e' & _ & He & Hs1 & Hs2)]; rewrite He in Ht.
  - destruct t2; cbn in Ht; [by injection Ht as <- <-|]. injection Ht as _ Ht. by eapply IH.
  - destruct t2 as [|? [|? t2]]; cbn in Ht; [by injection Ht as <- <-|by injection Ht as _ <- <-|]. injection Ht as _ _ Ht. by eapply IH.
Qed.
Theorem C42_answers s t2 e t1 i : freach s -> f_tr s = t2 ++ e :: t1 ->
  e = FEUndef i ∨ e = FEBlock i ∨ (∃ r, e = FEReturn i r) ∨ (∃ x, e = FEThrow i x) -> obtained i e t1.
Proof.
  intros Hr Ht He. pose proof (trace_ok _ _ _ _ Hr Ht) as H. destruct He as [->|[->|[[r ->]|[x ->]]]]; done.
Qed.
(** Awaiting a finished future does not suspend. *)
Theorem C42_no_suspend s s' i k : freach s -> finished (f_tr s) = true -> fperform (FAwait i k) s = Some s' ->
  taken (f_tr s) = false -> (reported (f_tr s) ≠ None ∨ raised (f_tr s) ≠ None ∨ k = KVoid) ->
  ∃ e, f_tr s' = e :: FEAwait i k :: f_tr s ∧ yields k i (f_tr s) e.
Proof.
  intros Hr Hf Hp Ht Hres. pose proof (freach_inv _ Hr) as Hi. pose proof Hi as [H1 H2 H3 H4 H5 H6 H7]. cbn in Hp.
  specialize (H7 i). destruct (f_aw s i) eqn:Ea; try done. destruct H7 as (Hw1 & Hw2 & Hw3). injection Hp as <-. rewrite H1, Hf. cbn [orb].
  assert (finv (say (FEAwait i k) (put i (AChecked k) s))) as Hi'.
  { apply inv_awaiter; [done|done|left; done|]. cbn. by rewrite decide_True. }
  pose proof (obtain_spec _ k i Hi') as Ho. change (obtain k (say (FEAwait i k) (put i (AChecked k) s))) with (obtain k (say (FEAwait i k) s)) in Ho. cbn in Ho.
  destruct (resume_ev (say (FEAwait i k) s) i k) as (e & He & _ & _ & Hx). exists e. split; [done|].
  unfold yields. destruct (obtain k (say (FEAwait i k) s)) as [[t f]|]; [|by rewrite Hf in Ho; destruct Ho]. subst e.
  destruct Ho as [(x & -> & Hrx)|(Hrx & [(-> & -> & Hfi)|[(Hk & Hkt & v & -> & Hv & _)|(Hk & -> & Hu)]])]; rewrite Hrx; [done|done|destruct k; eauto; done|].
  exfalso. destruct Hu as [Hu|[_ Hu]]; [congruence|]. naive_solver.
Qed.
(** Nothing is lost: a coroutine awaiting a future is resumed with its result once the future has finished - at whatever time it finished. *)
Theorem C42_resumed s i k : freach s -> waits i k (f_tr s) -> finished (f_tr s) = true -> blocked i (f_tr s) = false ->
  taken (f_tr s) = false -> (reported (f_tr s) ≠ None ∨ raised (f_tr s) ≠ None ∨ k = KVoid) ->
  ∃ s' e, yields k i (f_tr s) e ∧
    ((fperform (FDeliver i) s = Some s' ∧ f_tr s' = e :: f_tr s) ∨
     (∃ s1, fperform (FWatch i) s = Some s1 ∧ fperform (FDeliver i) s1 = Some s' ∧ f_tr s' = e :: FESuspend i :: f_tr s)).
Proof.
  intros Hr [Hw1 Hw2] Hf Hb Ht Hres. pose proof (freach_inv _ Hr) as Hi. pose proof Hi as [H1 H2 H3 H4 H5 H6 H7].
  specialize (H7 i).
  assert (∀ s, finv s -> finished (f_tr s) = true -> taken (f_tr s) = false -> (reported (f_tr s) ≠ None ∨ raised (f_tr s) ≠ None ∨ k = KVoid) ->
     ∃ e, f_tr (resume i k s) = e :: f_tr s ∧ yields k i (f_tr s) e) as Hyield.
  { clear. intros s Hi Hf Ht Hres. destruct (resume_ev s i k) as (e & He & _ & _ & Hx). exists e. split; [done|]. pose proof (obtain_spec s k i Hi) as Ho.
    unfold yields. destruct (obtain k s) as [[t f]|]; [|by rewrite Hf in Ho; destruct Ho]. subst e.
    destruct Ho as [(x & -> & Hrx)|(Hrx & [(-> & -> & Hfi)|[(Hk & Hkt & v & -> & Hv & _)|(Hk & -> & Hu)]])]; rewrite Hrx; [done|done|destruct k; eauto; done|].
    exfalso. destruct Hu as [Hu|[_ Hu]]; [congruence|]. naive_solver. }
  destruct (f_aw s i) as [|k'|k'|k'|k'|b|] eqn:Ea; cbn in H7.
  - destruct H7; congruence.
  - destruct H7 as (Hk & _). assert (k' = k) as -> by congruence.
    destruct (fperform (FWatch i) s) as [s1|] eqn:E1; [|cbn in E1; by rewrite Ea in E1].
    assert (freach s1) as Hr1 by (by eapply freach_S). cbn in E1. rewrite Ea, H1, Hf in E1. injection E1 as <-.
    destruct (Hyield _ (freach_inv _ Hr1)) as (e & He & Hy); [done..|].
    eexists _, e. split; [exact Hy|]. right. eexists. split; [reflexivity|]. split; [|exact He]. cbn. by rewrite decide_True.
  - destruct H7 as (_ & _ & H & _). congruence.
  - destruct H7 as (Hk & _). assert (k' = k) as -> by congruence. destruct (Hyield s Hi) as (e & He & Hy); [done..|].
    exists (resume i k s), e. split; [done|]. left. split; [|done]. cbn. by rewrite Ea.
  - destruct H7 as (_ & _ & _ & H). congruence.
  - destruct H7 as (_ & H & _). congruence.
  - destruct H7 as (_ & H). congruence.
Qed.
(** Before that it is suspended, and its thread is free. *)
Theorem C42_suspends s s' i k : freach s -> finished (f_tr s) = false -> canceled (f_tr s) = false -> raised (f_tr s) = None -> fperform (FAwait i k) s = Some s' ->
  f_tr s' = FEAwait i k :: f_tr s ∧ ∃ s'', fperform (FWatch i) s' = Some s'' ∧ f_tr s'' = FESuspend i :: f_tr s'.
Proof.
  intros Hr Hf Hc Hx Hp. pose proof (freach_inv _ Hr) as Hi. pose proof Hi as [H1 H2 H3 H4 H5 H6 H7]. cbn in Hp. specialize (H7 i).
  destruct (f_aw s i) eqn:Ea; try done. rewrite H1, H2, Hf, Hc, Hx in Hp. cbn in Hp. injection Hp as <-. split; [done|].
  eexists. split; [cbn; by rewrite decide_True|done].
Qed.

(** ** C84 *)

(** Violated: co_await on a future that was canceled but is still running (and has no result yet) blocks the thread. *)
Theorem C84_canceled_blocks_refuted s s' i k : freach s -> canceled (f_tr s) = true -> finished (f_tr s) = false ->
  reported (f_tr s) = None -> raised (f_tr s) = None -> fperform (FAwait i k) s = Some s' ->
  f_tr s' = FEBlock i :: FEAwait i k :: f_tr s ∧ ∀ x, x ∈ [FWatch i; FDeliver i; FUnblock i; FDestroy i] -> fperform x s' = None.
Proof.
  intros Hr Hc Hf Hn Hx Hp. pose proof (freach_inv _ Hr) as Hi. pose proof Hi as [H1 H2 H3 H4 H5 H6 H7]. cbn in Hp. specialize (H7 i).
  destruct (f_aw s i) eqn:Ea; try done. rewrite H2, Hc in Hp. cbn [orb] in Hp. rewrite orb_true_r in Hp. injection Hp as <-.
  assert (obtain k (say (FEAwait i k) s) = None) as Ho. { unfold obtain. cbn. rewrite H4, H3, H1, Hf, Hn, Hx. by destruct k. }
  unfold resume. rewrite Ho. split; [done|]. intros x Hx'.
  repeat (apply elem_of_cons in Hx' as [->|Hx']); [..|by apply elem_of_nil in Hx']; cbn; rewrite decide_True by done; try done.
  change (obtain k (say (FEBlock i) (put i (ABlocked k) (say (FEAwait i k) s)))) with (obtain k (say (FEAwait i k) s)). by rewrite Ho.
Qed.

(** ** C85 *)

(** Violated: if the future finishes without a result (it was canceled), the coroutine awaiting it is resumed, and reads a result that does not exist. *)
Theorem C85_canceled_undefined_refuted s i k : freach s -> waits i k (f_tr s) -> k ≠ KVoid -> finished (f_tr s) = true -> blocked i (f_tr s) = false ->
  reported (f_tr s) = None -> raised (f_tr s) = None ->
  ∃ s', (fperform (FDeliver i) s = Some s' ∧ f_tr s' = FEUndef i :: f_tr s) ∨
     (∃ s1, fperform (FWatch i) s = Some s1 ∧ fperform (FDeliver i) s1 = Some s' ∧ f_tr s' = FEUndef i :: FESuspend i :: f_tr s).
Proof.
  intros Hr [Hw1 Hw2] Hkv Hf Hb Hn Hx. pose proof (freach_inv _ Hr) as Hi. pose proof Hi as [H1 H2 H3 H4 H5 H6 H7]. specialize (H7 i).
  assert (∀ s, f_fin s = true -> f_res s = None -> f_exc s = None -> f_tr (resume i k s) = FEUndef i :: f_tr s) as Hu.
  { clear -Hkv. intros s H1 H2 H3. unfold resume, obtain. rewrite H1, H2, H3. by destruct k. }
  destruct (f_aw s i) as [|k'|k'|k'|k'|b|] eqn:Ea; cbn in H7.
  - destruct H7; congruence.
  - destruct H7 as (Hk & _). assert (k' = k) as -> by congruence. eexists. right.
    eexists. split; [cbn; rewrite Ea, H1, Hf; reflexivity|]. split; [cbn; rewrite decide_True by done; reflexivity|]. rewrite Hu; [done|cbn; congruence..].
  - destruct H7 as (_ & _ & H & _). congruence.
  - destruct H7 as (Hk & _). assert (k' = k) as -> by congruence. eexists. left. split; [cbn; by rewrite Ea|]. rewrite Hu; congruence.
  - destruct H7 as (_ & _ & _ & H). congruence.
  - destruct H7 as (_ & H & _). congruence.
  - destruct H7 as (_ & H). congruence.
Qed.

(** ** C86 *)

(** Violated: the second of two coroutines that take the result (or the first that reads it after it was taken) reads a result that does not exist. *)
Theorem C86_taken_twice_refuted s s' i k : freach s -> finished (f_tr s) = true -> taken (f_tr s) = true -> k ≠ KVoid -> raised (f_tr s) = None ->
  fperform (FAwait i k) s = Some s' -> f_tr s' = FEUndef i :: FEAwait i k :: f_tr s.
Proof.
  intros Hr Hf Ht Hk Hx Hp. pose proof (freach_inv _ Hr) as [H1 H2 H3 H4 H5 H6 H7]. cbn in Hp. destruct (f_aw s i); try done. injection Hp as <-.
  rewrite H1, Hf. cbn [orb]. unfold resume, obtain. cbn. rewrite H1, H3, H4, H6, Hf, Ht, Hx. by destruct k, (reported (f_tr s)).
Qed.

(** ** C87 *)

(** Violated: if a coroutine is destroyed while it awaits a future, then it is resumed when the future finishes. *)
Lemma resume_lost s i k j : finv s -> lost j (f_tr (resume i k s)) = lost j (f_tr s).
Proof.
  intros Hi. destruct (resume_ev s i k) as (e & -> & _ & _ & He). pose proof (obtain_spec s k i Hi) as Ho.
  destruct (obtain k s) as [[t f]|]; [|by rewrite He]. destruct Ho as [(y & Hy & _)|(_ & [(_ & Hy & _)|[(_ & _ & v & Hy & _)|(_ & Hy & _)]])]; by rewrite He, Hy.
Qed.
Lemma resume_aw s i k j : f_aw (resume i k s) j = if decide (j = i) then match obtain k s with Some _ => ADone | None => ABlocked k end else f_aw s j.
Proof. unfold resume. destruct (obtain k s) as [[[] e]|]; cbn; by destruct (decide (j = i)). Qed.
Definition gone (x : awst) : bool := match x with AGone _ => true | _ => false end.
Lemma lost_spec s : freach s -> ∀ j, lost j (f_tr s) = gone (f_aw s j).
Proof.
  induction 1 as [|s s' x Hr IH Hp]; intros j; [done|]. specialize (IH j). pose proof (freach_inv _ Hr) as Hi. destruct x as [i k|i|i|i|i|v|e| |]; cbn in Hp.
  - destruct (f_aw s i) eqn:Ea; try done. injection Hp as <-. destruct (_ || _).
    + assert (lost j (f_tr (resume i k (say (FEAwait i k) s))) = lost j (f_tr s)) as ->.
      { destruct (resume_ev (say (FEAwait i k) s) i k) as (e & -> & _ & _ & He).
        assert (finv (say (FEAwait i k) (put i (AChecked k) s))) as Hi'.
        { apply inv_awaiter; [done|done|left; done|]. cbn. rewrite decide_True by done. pose proof (v_aw _ Hi i) as H. rewrite Ea in H. by destruct H as (_ & ? & ?). }
        pose proof (obtain_spec _ k i Hi') as Ho. change (obtain k (say (FEAwait i k) (put i (AChecked k) s))) with (obtain k (say (FEAwait i k) s)) in Ho.
        destruct (obtain k (say (FEAwait i k) s)) as [[t f]|]; [|by rewrite He]. destruct Ho as [(y & Hy & _)|(_ & [(_ & Hy & _)|[(_ & _ & v & Hy & _)|(_ & Hy & _)]])]; by rewrite He, Hy. }
      rewrite resume_aw. cbn. destruct (decide (j = i)) as [->|]; [|done]. rewrite Ea in IH. rewrite IH. by destruct (obtain _ _).
    + cbn. destruct (decide (j = i)) as [->|]; [|done]. by rewrite Ea in IH.
  - destruct (f_aw s i) as [|k| | | | |] eqn:Ea; try done. injection Hp as <-. cbn. destruct (decide (j = i)) as [->|]; [|done]. rewrite Ea in IH. rewrite IH. by destruct (f_fin s).
  - destruct (f_aw s i) as [| | |k| |[]|] eqn:Ea; try done; injection Hp as <-.
    + rewrite resume_lost, resume_aw by done. destruct (decide (j = i)) as [->|]; [|done]. rewrite Ea in IH. rewrite IH. by destruct (obtain _ _).
    + cbn. destruct (decide (j = i)) as [->|Hne]; [rewrite bool_decide_eq_false_2; [done|by intros H; apply H]|]. by rewrite bool_decide_eq_true_2.
  - destruct (f_aw s i) as [| | | |k| |] eqn:Ea; try done. destruct (obtain k s) eqn:Eo; [|done]. injection Hp as <-.
    rewrite resume_lost, resume_aw by done. destruct (decide (j = i)) as [->|]; [|done]. rewrite Ea in IH. rewrite IH. by destruct (obtain _ _).
  - destruct (f_aw s i) as [| |k|k| | |] eqn:Ea; try done; injection Hp as <-; cbn; (destruct (decide (j = i)) as [->|Hne]; [by rewrite bool_decide_eq_true_2|by rewrite bool_decide_eq_false_2 by congruence]).
  - destruct (f_fin s || f_can s); [done|]. destruct (f_res s); [done|]. by injection Hp as <-.
  - destruct (f_fin s || f_can s); [done|]. destruct (f_res s); [done|]. by injection Hp as <-.
  - by injection Hp as <-.
  - destruct (f_fin s); [done|]. injection Hp as <-. cbn. rewrite IH. by destruct (f_aw s j).
Qed.
Theorem C87_destroyed_resumed_refuted s i : freach s -> lost i (f_tr s) = true -> finished (f_tr s) = true ->
  ∃ s', fperform (FDeliver i) s = Some s' ∧ f_tr s' = FEStale i :: f_tr s.
Proof.
  intros Hr Hl Hf. rewrite (lost_spec _ Hr) in Hl. pose proof (v_aw _ (freach_inv _ Hr) i) as Ha. cbn. destruct (f_aw s i) as [| | | | |b|]; try done.
  destruct Ha as (_ & _ & ->). rewrite Hf. eauto.
Qed.

(** ** The statements are not vacuous *)

Lemma fplay_reach l s : freach s -> freach (fplay l s).
Proof.
  revert s. induction l as [|x l IH]; intros s Hr; cbn; [done|]. destruct (fperform x s) eqn:E; [|done]. apply IH. by eapply freach_S.
Qed.
Lemma fut_reach l : freach (fplay l fut0).
Proof. apply fplay_reach. constructor. Qed.
(** Two coroutines await the result, the future finishes between the check and the suspension of the second; a third one does not suspend. *)
Definition run1 : list fact := [FAwait 0 KResult; FWatch 0; FAwait 1 KResult; FReport 7; FFinish].
Example ex_C42_resumed : let s := fplay run1 fut0 in freach s ∧ waits 0 KResult (f_tr s) ∧ waits 1 KResult (f_tr s) ∧ finished (f_tr s) = true ∧ reported (f_tr s) = Some 7
  ∧ blocked 1 (f_tr s) = false ∧ taken (f_tr s) = false ∧
  f_tr (fplay [FDeliver 0; FWatch 1; FDeliver 1; FAwait 2 KTake] s) =
    [FEReturn 2 (Some 7); FEAwait 2 KTake; FEReturn 1 (Some 7); FESuspend 1; FEReturn 0 (Some 7)] ++ f_tr s.
Proof. cbn zeta. split; [apply fut_reach|]. split; [done|]. split; [done|]. by split_and!. Qed.
Example ex_C42_throws : f_tr (fplay [FAwait 0 KVoid; FWatch 0; FThrow 3; FFinish; FDeliver 0] fut0) =
  [FEThrow 0 3; FEFinish; FEExc 3; FESuspend 0; FEAwait 0 KVoid].
Proof. reflexivity. Qed.
Example ex_C84 : let s := fplay [FCancel] fut0 in freach s ∧ canceled (f_tr s) = true ∧ finished (f_tr s) = false ∧ reported (f_tr s) = None ∧ raised (f_tr s) = None ∧
  f_tr (fplay [FCancel; FAwait 0 KResult; FFinish; FUnblock 0] fut0) = [FEUndef 0; FEFinish; FEBlock 0; FEAwait 0 KResult; FECancel].
Proof. cbn zeta. split; [apply fut_reach|]. by split_and!. Qed.
Example ex_C85 : let s := fplay [FAwait 0 KResult; FWatch 0; FCancel; FFinish] fut0 in freach s ∧ waits 0 KResult (f_tr s) ∧ finished (f_tr s) = true ∧ blocked 0 (f_tr s) = false ∧
  reported (f_tr s) = None ∧ raised (f_tr s) = None.
Proof. cbn zeta. split; [apply fut_reach|]. by split_and!. Qed.
Example ex_C86 : let s := fplay [FAwait 0 KTake; FWatch 0; FReport 7; FFinish; FDeliver 0] fut0 in freach s ∧ finished (f_tr s) = true ∧ taken (f_tr s) = true ∧
  raised (f_tr s) = None ∧ f_tr (fplay [FAwait 1 KTake] s) = [FEUndef 1; FEAwait 1 KTake] ++ f_tr s.
Proof. cbn zeta. split; [apply fut_reach|]. by split_and!. Qed.
Example ex_C87 : let s := fplay [FAwait 0 KResult; FWatch 0; FDestroy 0; FReport 7; FFinish] fut0 in freach s ∧ lost 0 (f_tr s) = true ∧ finished (f_tr s) = true.
Proof. cbn zeta. split; [apply fut_reach|]. by split_and!. Qed.

Print Assumptions C42_answers.
Print Assumptions C42_no_suspend.
Print Assumptions C42_resumed.
Print Assumptions C42_suspends.
Print Assumptions C84_canceled_blocks_refuted.
Print Assumptions C85_canceled_undefined_refuted.
Print Assumptions C86_taken_twice_refuted.
Print Assumptions C87_destroyed_resumed_refuted.
