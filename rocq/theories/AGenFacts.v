(** * Facts about legal AsyncGenerator traces. *)
From stdpp Require Import gmap list.
From Verif Require Import AGenModel AGenSpec AGenInv.

Section facts.
Context {V E : Type}.
Notation event := (aevent V E).

Lemma alegal_app l1 (e : event) l2 : alegal_trace (l1 ++ e :: l2) -> alegal e l2 ∧ alegal_trace l2.
Proof. induction l1 as [|x l1 IH]; cbn; [done|]. intros [_ ?]. auto. Qed.
Lemma alegal_suffix l1 (l2 : list event) : alegal_trace (l1 ++ l2) -> alegal_trace l2.
Proof. induction l1 as [|x l1 IH]; cbn; [done|]. intros [_ ?]. auto. Qed.

Lemma by_runs (e : event) l f : alegal e l -> by_co e = Some f -> aphase_of f l = QRun.
Proof. intros [_ He] Hb. destruct e as [| | | | | | | | | |[] |[] ]; cbn in *; try done; injection Hb as <-; naive_solver. Qed.

Lemma none_made f (tr : list event) : alegal_trace tr -> aphase_of f tr = QNone -> made f tr = false ∧ last_adv f tr = None ∧ ayielded f tr = [].
Proof.
  induction tr as [|e l IH]; [done|]. intros [[_ He] Hl].
  destruct e as [g b|g b|c g i|c g i o|g v|g r|g r|g x|g v|g|w o|w a]; cbn; try (by apply IH);
    repeat (destruct (decide (f = _)) as [->|]; try done); try (by apply IH).
Qed.
Lemma init_adv f (tr : list event) : alegal_trace tr -> aphase_of f tr = QInit -> last_adv f tr = None ∧ ayielded f tr = [].
Proof.
  induction tr as [|e l IH]; [done|]. intros [[_ He] Hl].
  destruct e as [g b|g b|c g i|c g i o|g v|g r|g r|g x|g v|g|w o|w a]; cbn in *; try (by apply IH);
    repeat (destruct (decide (f = _)) as [->|]; try done); try (by apply IH).
  intros _. by apply none_made.
Qed.

Lemma made_new f (tr : list event) : made f tr = true <-> ∃ b, AENew f b ∈ tr.
Proof.
  induction tr as [|e l IH]; [split; [done|intros [? ?%elem_of_nil]; done]|].
  assert (Hx : (∀ b, e ≠ AENew f b) -> ((∃ b, AENew f b ∈ e :: l) <-> ∃ b, AENew f b ∈ l)).
  { intros Hn. split; intros [b Hb]; exists b; [|by right]. apply elem_of_cons in Hb as [Hb|?]; [|done]. by destruct (Hn b). }
  destruct e as [g b|g b|c g i|c g i o|g v|g r|g r|g x|g v|g|w o|w a]; try (cbn [made]; rewrite Hx; done).
  cbn [made]. destruct (decide (f = g)) as [->|]; [split; [intros _; exists b; left|done]|]. rewrite Hx; [done|congruence].
Qed.

(** Whoever waits for [f] is the one that resumed it last, and [f] is still at work (or was destroyed). *)
Lemma waiting c f j (tr : list event) : alegal_trace tr -> aphase_of c tr = QWait f j ->
  last_adv f tr = Some c ∧ (active (aphase_of f tr) ∨ aphase_of f tr = QGone ∨ ∃ x l o, tr = x :: l ∧ out_of f x = Some o).
Proof.
  induction tr as [|e l IH]; [done|]. intros [He Hl]. pose proof He as [Hh He'].
  (* the coroutine still waits: e does not concern it *)
  assert (Hold : aphase_of c l = QWait f j -> last_adv f (e :: l) = last_adv f l ->
     (out_of f e = None -> active (aphase_of f l) -> active (aphase_of f (e :: l))) ->
     (∀ x l' o, l = x :: l' -> out_of f x = Some o -> False) ->
     last_adv f (e :: l) = Some c ∧ (active (aphase_of f (e :: l)) ∨ aphase_of f (e :: l) = QGone ∨ ∃ x l0 o, e :: l = x :: l0 ∧ out_of f x = Some o)).
  { intros Hc Ha Hact Hno. specialize (IH Hl Hc) as [H1 H2]. rewrite Ha. split; [done|].
    destruct H2 as [H2|[H2|(x & l0 & o & H2 & H3)]].
    - destruct (out_of f e) as [o|] eqn:Ho; [right; right; eauto|left; auto].
    - right. left. by apply gone_abs.
    - by destruct (Hno _ _ _ H2 H3). }
  assert (Hns : (∀ c f i o, e ≠ AEBack c f i o) -> ∀ x l' o, l = x :: l' -> out_of f x = Some o -> False).
  { intros Hb x l' o -> Ho. destruct Hh as (? & ? & ? & ? & ->); [by destruct x|]. by eapply Hb. }
  destruct e as [g b|g b|d g i|d g i o|g v|g r|g r|g x|g v|g|w o|w a]; cbn [aphase_of aphase1] in *.
  - destruct (decide (c = g)) as [|Hcg]; [done|]. intros Hc. apply Hold; [done|done| |by apply Hns].
    intros _ Hac. destruct (decide (f = g)) as [->|]; [|done]. by rewrite He' in Hac.
  - destruct (decide (c = g)) as [|Hcg]; [done|]. intros Hc. apply Hold; [done|done| |by apply Hns].
    intros _ Hac. destruct (decide (f = g)) as [->|]; [|done]. done.
  - destruct He' as (Hdg & Hd & Hg). destruct (decide (c = d)) as [->|Hcd].
    + intros [= <- <-]. cbn. rewrite decide_True by done. split; [done|]. left. by rewrite decide_False, decide_True by done.
    + destruct (decide (c = g)) as [|Hcg]; [done|]. intros Hc.
      assert (f ≠ g).
      { intros ->. destruct (IH Hl Hc) as [_ [H|[H|(x & l' & o & Hx & Ho)]]].
        - destruct Hg as [Hg|[v Hg]]; by rewrite Hg in H.
        - destruct Hg as [Hg|[v Hg]]; congruence.
        - eapply Hns; eauto. }
      apply Hold; [done| | |by apply Hns].
      * cbn. by rewrite decide_False.
      * intros _ Hac. destruct (decide (f = d)) as [->|]; [done|]. by rewrite decide_False.
  - destruct He' as (Hla & (k & Hd & Hk) & x & l' & -> & Ho).
    destruct (decide (c = d)) as [->|Hcd]; [done|]. intros Hc.
    destruct (decide (f = g)) as [->|Hfg].
    { destruct (IH Hl Hc) as [H _]. congruence. }
    apply Hold; [done|done| |].
    + intros _ Hac. by destruct (decide (f = d)) as [->|].
    + intros x' l'' o' [= <- <-] Ho'. destruct x; cbn in *; try done; repeat destruct (decide (_ = _)); subst; try done.
  - destruct He' as [Hg Hm]. destruct (decide (c = g)) as [|Hcg]; [done|]. intros Hc. apply Hold; [done|done| |by apply Hns].
    cbn. destruct (decide (f = g)) as [->|]; done.
  - destruct He' as [Hg Hm]. destruct (decide (c = g)) as [|Hcg]; [done|]. intros Hc. apply Hold; [done|done| |by apply Hns].
    cbn. destruct (decide (f = g)) as [->|]; done.
  - destruct He' as [Hg Hm]. destruct (decide (c = g)) as [|Hcg]; [done|]. intros Hc. 
    destruct (decide (f = g)) as [->|Hfg].
    { destruct (IH Hl Hc) as [H1 _]. split; [done|]. right. left. by cbn; rewrite ?decide_True. }
    apply Hold; [done|done| |by apply Hns]. by intros _.
  - destruct (decide (c = g)) as [|Hcg]; [done|]. intros Hc. apply Hold; [done|done| |by apply Hns].
    intros _ Hac. by destruct (decide (f = g)) as [->|].
  - destruct (decide (c = g)) as [|Hcg]; [done|]. intros Hc. apply Hold; [done|done| |by apply Hns].
    intros _ Hac. by destruct (decide (f = g)) as [->|].
  - destruct He' as [Hg Hm]. destruct (decide (c = g)) as [|Hcg]; [done|]. intros Hc. 
    destruct (decide (f = g)) as [->|Hfg].
    { destruct (IH Hl Hc) as [H1 _]. split; [done|]. right. left. by cbn; rewrite ?decide_True. }
    apply Hold; [done|done| |by apply Hns]. by intros _.
  - intros Hc. apply Hold; [done|done|done|by apply Hns].
  - intros Hc. apply Hold; [done|done|done|by apply Hns].
Qed.

(** A producer at work has someone waiting for it (unless that one was destroyed). *)
Lemma worked_for f (tr : list event) : alegal_trace tr -> made f tr = true -> active (aphase_of f tr) ->
  ∃ c, last_adv f tr = Some c ∧ ((∃ j, aphase_of c tr = QWait f j) ∨ aphase_of c tr = QGone).
Proof.
  induction tr as [|e l IH]; [done|]. intros [He Hl]. pose proof He as [Hh He'].
  assert (Hold : made f l = true -> active (aphase_of f l) -> last_adv f (e :: l) = last_adv f l ->
     (∀ c j, aphase_of c l = QWait f j -> last_adv f l = Some c -> (∃ j, aphase_of c (e :: l) = QWait f j) ∨ aphase_of c (e :: l) = QGone) ->
     ∃ c, last_adv f (e :: l) = Some c ∧ ((∃ j, aphase_of c (e :: l) = QWait f j) ∨ aphase_of c (e :: l) = QGone)).
  { intros Hm Ha Hla Hk. destruct (IH Hl Hm Ha) as (c & Hc & [[j Hj]|Hg]); exists c; rewrite Hla; (split; [done|]); [eauto|].
    right. by apply gone_abs. }
  destruct e as [g b|g b|d g i|d g i o|g v|g r|g r|g x|g v|g|w o|w a]; cbn [aphase_of aphase1 made] in *.
  - destruct (decide (f = g)) as [|Hfg]; [done|]. intros Hm Ha. apply Hold; [done|done|done|]. intros c j Hc _.
    rewrite decide_False; [eauto|]. intros ->. congruence.
  - destruct (decide (f = g)) as [->|Hfg].
    + intros Hm. destruct (none_made g l Hl He') as [? _]. congruence.
    + intros Hm Ha. apply Hold; [done|done|done|]. intros c j Hc _. rewrite decide_False; [eauto|]. intros ->. congruence.
  - destruct He' as (Hdg & Hd & Hg). intros Hm Ha. destruct (decide (f = g)) as [->|Hfg].
    + exists d. cbn. rewrite !decide_True by done. split; [done|]. eauto.
    + assert (Ha' : active (aphase_of f l)).
      { destruct (decide (f = d)) as [->|]; [by rewrite Hd|done]. }
      apply Hold; [done|done|cbn; by rewrite decide_False|]. intros c j Hc _.
      rewrite !decide_False; [eauto|..]; intros ->; [destruct Hg as [Hg|[v Hg]]|]; congruence.
  - destruct He' as (Hla & (k & Hd & Hk) & x & l' & -> & Ho). intros Hm Ha.
    destruct (decide (f = g)) as [->|Hfg].
    { (* g has just stopped *) exfalso. destruct (decide (g = d)) as [->|].
      - destruct x; cbn in *; try done; destruct (decide _); by rewrite ?decide_True in *.
      - destruct x; cbn in *; try done; by destruct (decide _). }
    assert (Ha' : active (aphase_of f (x :: l'))).
    { destruct (decide (f = d)) as [->|]; [by rewrite Hd|done]. }
    apply Hold; [done|done|done|]. intros c j Hc _. rewrite decide_False; [eauto|]. intros ->. congruence.
  - destruct He' as [Hg Hmg]. destruct (decide (f = g)) as [|Hfg]; [done|]. intros Hm Ha. apply Hold; [done|done|done|]. intros c j Hc _.
    rewrite decide_False; [eauto|]. intros ->. congruence.
  - destruct He' as [Hg Hmg]. destruct (decide (f = g)) as [|Hfg]; [done|]. intros Hm Ha. apply Hold; [done|done|done|]. intros c j Hc _.
    rewrite decide_False; [eauto|]. intros ->. congruence.
  - destruct He' as [Hg Hmg]. destruct (decide (f = g)) as [|Hfg]; [done|]. intros Hm Ha. apply Hold; [done|done|done|]. intros c j Hc _.
    rewrite decide_False; [eauto|]. intros ->. congruence.
  - intros Hm Ha. assert (Ha' : active (aphase_of f l)) by (destruct (decide (f = g)) as [->|]; [by rewrite He'|done]).
    apply Hold; [done|done|done|]. intros c j Hc _. rewrite decide_False; [eauto|]. intros ->. congruence.
  - intros Hm Ha. assert (Ha' : active (aphase_of f l)) by (destruct (decide (f = g)) as [->|]; [by rewrite He'|done]).
    apply Hold; [done|done|done|]. intros c j Hc _. rewrite decide_False; [eauto|]. intros ->. congruence.
  - destruct He' as [Hg Hmg]. destruct (decide (f = g)) as [|Hfg]; [done|]. intros Hm Ha. apply Hold; [done|done|done|]. intros c j Hc _.
    destruct (decide (c = g)); eauto.
  - intros Hm Ha. apply Hold; [done|done|done|]. eauto.
  - intros Hm Ha. apply Hold; [done|done|done|]. eauto.
Qed.

(** Resumptions and stops of a producer. *)
Definition bal (m : bool) (p : aphase V) (a s : nat) : Prop :=
  match p with
  | QNone => m = false ∧ a = 0 ∧ s = 0
  | QInit => m = true ∧ a = 0 ∧ s = 0
  | QYield _ | QFin => m = true ∧ a = s
  | QRun | QLeaf | QWait _ _ => if m then a = S s else a = 0 ∧ s = 0
  | QGone => s <= a <= S s
  end.
Lemma balance f (tr : list event) : alegal_trace tr -> bal (made f tr) (aphase_of f tr) (asum (is_adv f) tr) (asum (is_stop f) tr).
Proof.
  induction tr as [|e l IH]; [done|]. intros [[_ He] Hl]. specialize (IH Hl).
  destruct e as [g b|g b|d g i|d g i o|g v|g r|g r|g x|g v|g|w o|w a]; cbn in *; try done;
    try (destruct (decide (f = g)) as [<-|Hfg]; [|done]); try done.
  - rewrite He in IH. destruct IH as (_ & -> & ->). done.
  - rewrite He in IH. destruct IH as (-> & -> & ->). done.
  - destruct He as (? & Hd & Hg). destruct (decide (f = g)) as [<-|Hfg].
    + rewrite decide_False by done.
      destruct Hg as [Hg|[v Hg]]; rewrite Hg in IH; cbn in IH; [destruct IH as (-> & -> & ->)|destruct IH as [-> ->]]; done.
    + destruct (decide (f = d)) as [<-|]; [|done]. by rewrite Hd in IH.
  - destruct He as (_ & (j & Hd & _) & _). destruct (decide (f = d)) as [<-|]; [|done]. by rewrite Hd in IH.
  - destruct He as [Hg Hm]. rewrite Hg, Hm in IH. cbn in IH. by rewrite IH, Hm.
  - destruct He as [Hg Hm]. rewrite Hg, Hm in IH. cbn in IH. by rewrite IH, Hm.
  - destruct He as [Hg Hm]. rewrite Hg, Hm in IH. cbn in IH. destruct IH as [-> ->]. cbn; lia.
  - by rewrite He in IH.
  - by rewrite He in IH.
  - destruct He as [Hg Hm]. destruct (aphase_of f l); cbn in *; try done; rewrite Hm in *; lia.
Qed.

(** Each co_yield / end of a producer completes exactly one co_await, directly afterwards. *)
Fixpoint astops (f : nat) (tr : list event) : list (aout E) :=
  match tr with [] => [] | e :: l => astops f l ++ match out_of f e with Some o => [o] | None => [] end end.
Definition back_of (f : nat) (e : event) : list (aout E) :=
  match e with AEBack _ g _ o => if decide (f = g) then [o] else [] | _ => [] end.
Fixpoint abacks (f : nat) (tr : list event) : list (aout E) :=
  match tr with [] => [] | e :: l => abacks f l ++ back_of f e end.

Lemma stops_backs f (tr : list event) : alegal_trace tr ->
  astops f tr = abacks f tr ++ match tr with x :: _ => match out_of f x with Some o => [o] | None => [] end | [] => [] end.
Proof.
  induction tr as [|e l IH]; [done|]. intros [[Hh He] Hl]. specialize (IH Hl). cbn. rewrite IH.
  destruct l as [|x l]; cbn in *.
  { destruct e; cbn in *; try done. destruct He as (_ & _ & ? & ? & ? & _). done. }
  assert (Hdec : is_stop_event x ∨ ¬ is_stop_event x) by (destruct x; cbn; tauto). destruct Hdec as [Hx|Hx].
  2:{ (* nothing stopped: e is no completion *)
    assert (out_of f x = None) as -> by (by destruct x). rewrite !app_nil_r.
    assert (back_of f e = []) as ->; [|by rewrite app_nil_r].
    destruct e; cbn in *; try done. destruct He as (_ & _ & y & l' & [= <- <-] & Ho). by destruct x. }
  destruct (Hh Hx) as (c & g & i & o & ->). cbn in *. destruct He as (_ & _ & y & l' & [= <- <-] & Ho). rewrite !app_nil_r. f_equal.
  destruct x; cbn in *; try done; repeat destruct (decide (_ = _)); subst; try done; by injection Ho as <-.
Qed.

(** What stays as it is while nobody resumes or destroys [f]. *)
Lemma yield_keeps f v (e : event) l : alegal e l -> aphase_of f l = QYield v -> (∀ c j, e ≠ AEAdv c f j) -> e ≠ AEDestroy f ->
  aphase_of f (e :: l) = QYield v ∧ ayielded f (e :: l) = ayielded f l.
Proof.
  intros [_ He] Hf H1 H2. destruct e as [g b|g b|d g i|d g i o|g w|g r|g r|g x|g w|g|w o|w a]; cbn in *; try done;
    repeat (destruct (decide (f = _)) as [<-|]); try done; try congruence; try (destruct He as [? ?]; congruence).
  - destruct He as (? & ? & ?). congruence.
  - destruct He as (_ & (? & ? & _) & _). congruence.
Qed.
Lemma fin_keeps f (e : event) l : alegal e l -> aphase_of f l = QFin -> e ≠ AEDestroy f ->
  aphase_of f (e :: l) = QFin ∧ ayielded f (e :: l) = ayielded f l.
Proof.
  intros [_ He] Hf H2. destruct e as [g b|g b|d g i|d g i o|g w|g r|g r|g x|g w|g|w o|w a]; cbn in *; try done;
    repeat (destruct (decide (f = _)) as [<-|]); try done; try congruence; try (destruct He as [? ?]; congruence).
  - destruct He as (? & ? & ?). congruence.
  - destruct He as (? & ? & [?|[? ?]]); congruence.
  - destruct He as (_ & (? & ? & _) & _). congruence.
Qed.
Lemma got_keeps w (e : event) l : alegal e l -> aphase_of w l ≠ QRun -> agot (Co w) (e :: l) = agot (Co w) l.
Proof.
  intros [_ He] Hf. destruct e as [| | | | | | | | | |w' [n|v]|]; cbn in *; try done. destruct (decide (Co w = w')) as [<-|]; done.
Qed.
Lemma yielded_keeps f (e : event) l : out_of f e = None -> ayielded f (e :: l) = ayielded f l.
Proof. destruct e; cbn; try done. by destruct (decide _). Qed.

(** A finished body never does anything any more. *)
Lemma finish_once f r (tr : list event) : alegal_trace tr -> AEFinish f r ∈ tr -> aphase_of f tr = QFin ∨ aphase_of f tr = QGone.
Proof.
  induction tr as [|e l IH]; [by intros _ ?%elem_of_nil|]. intros [He Hl] [<-|Hin]%elem_of_cons.
  - left. cbn. by rewrite decide_True.
  - destruct (IH Hl Hin) as [Hp|Hp]; [|right; by apply gone_abs].
    destruct e as [g b|g b|d g i|d g i o|g v|g r'|g r'|g x|g v|g|w o|w a]; try (left; by apply (fin_keeps _ _ _ He Hp)).
    destruct (decide (f = g)) as [->|]; [right; cbn; by rewrite decide_True|]. left. apply (fin_keeps _ _ _ He Hp). congruence.
Qed.
Lemma destroy_gone f (tr : list event) : alegal_trace tr -> AEDestroy f ∈ tr -> aphase_of f tr = QGone.
Proof.
  induction tr as [|e l IH]; [by intros _ ?%elem_of_nil|]. intros [He Hl] [<-|Hin]%elem_of_cons.
  - cbn. by rewrite decide_True.
  - apply gone_abs; auto.
Qed.
Lemma phase_yield_last f v (tr : list event) : aphase_of f tr = QYield v -> last (ayielded f tr) = Some v.
Proof.
  induction tr as [|e l IH]; [done|].
  destruct e as [g b|g b|d g i|d g i o|g w|g r|g r|g x|g w|g|w o|w a]; cbn; try (by apply IH);
    repeat (destruct (decide (f = _)) as [<-|]); try done; try (by apply IH).
  intros [= <-]. by rewrite last_snoc.
Qed.
End facts.
