(** * Properties of QmlTask: C59, C92-C94. The model is QmlModel.v, the vocabulary QmlSpec.v. *)
From stdpp Require Import list option.
From Verif Require Import QmlModel QmlSpec.

Definition kinds (p : nat) (tr : list qev) (cs : list cont) : Prop := ∀ c, c ∈ cs -> owner (c_id c) tr = Some (p, c_kind c).
Definition task_ok (p : nat) (tr : list qev) (t : qtask) : Prop :=
  match t with
  | QNone => has_task p tr = false ∧ outcome p tr = None ∧ callbacks p tr = []
  | QPending cs => has_task p tr = true ∧ outcome p tr = None ∧ c_id <$> cs = callbacks p tr ∧ fresh p tr = true ∧ kinds p tr cs
  | QFinished v cs => has_task p tr = true ∧ ∃ r, outcome p tr = Some (Some r) ∧ c_id <$> cs = uncalled tr (callbacks p tr) ∧ v = (if fresh p tr then Some r else None) ∧ kinds p tr cs
  | QFailed => has_task p tr = true ∧ outcome p tr = Some None ∧ fresh p tr = true
  end.
(** Callbacks are numbered. *)
Record cb_ok (n : nat) (tr : list qev) : Prop := {
  y_own : ∀ p c, c ∈ callbacks p tr -> ∃ k, owner c tr = Some (p, k);
  y_lt : ∀ c, owner c tr ≠ None -> c < n;
  y_call : ∀ c, called c tr = true -> owner c tr ≠ None;
  y_nd : ∀ p, NoDup (callbacks p tr) }.
Record qinv (s : qst) : Prop := {
  x_hand : q_hand s = holders (q_tr s);
  x_dead : ∀ l, q_dead s l = killed l (q_tr s);
  x_bad : q_bad s = broken (q_tr s);
  x_priv : ∀ p, has_task p (q_tr s) = true ∨ callbacks p (q_tr s) ≠ [] ∨ outcome p (q_tr s) ≠ None -> p < q_priv s;
  x_cb : cb_ok (q_cont s) (q_tr s);
  x_task : ∀ p, task_ok p (q_tr s) (q_task s p) }.

(** Events that do not concern tasks and callbacks. *)
Definition mute (e : qev) : bool := match e with QEDefault _ _ | QECopy _ _ | QEDrop _ | QESet _ _ | QEKill _ | QEWarn _ | QEBad _ => true | _ => false end.
Lemma mute_task e p tr t : mute e = true -> task_ok p (e :: tr) t <-> task_ok p tr t.
Proof. by destruct e. Qed.
Lemma mute_cb e n tr : mute e = true -> cb_ok n tr -> cb_ok n (e :: tr).
Proof. intros He [H1 H2 H3 H4]. destruct e; try done; by split. Qed.

(** A callback is called. *)
Lemma call_uncalled tr c v l : c ∉ l -> uncalled (QECall c v :: tr) l = uncalled tr l.
Proof.
  intros Hni. unfold uncalled. apply List.filter_ext_in. intros d Hd%elem_of_list_In. cbn. rewrite bool_decide_eq_false_2; [done|]. by intros ->.
Qed.
Lemma call_all tr c v l : c ∉ l -> forallb (λ c', negb (called c' (QECall c v :: tr))) l = forallb (λ c', negb (called c' tr)) l.
Proof.
  induction l as [|d l IH]; [done|]. intros [Hne Hni]%not_elem_of_cons. cbn [forallb]. f_equal; [|by apply IH]. cbn. by rewrite bool_decide_eq_false_2.
Qed.
Lemma call_first tr c v l : NoDup (c :: l) -> uncalled (QECall c v :: tr) (c :: l) = uncalled tr l.
Proof.
  intros [Hc Hn]%list.NoDup_cons. unfold uncalled. cbn [List.filter]. replace (called c (QECall c v :: tr)) with true by (cbn; by rewrite bool_decide_eq_true_2). cbn [negb]. by apply call_uncalled.
Qed.
Section call.
Context (n : nat) (tr : list qev) (c : nat) (v : option nat) (p : nat) (k : ckind).
Context (Hok : cb_ok n tr) (Hown : owner c tr = Some (p, k)) (Hnew : called c tr = false).
Lemma call_cb : cb_ok n (QECall c v :: tr).
Proof.
  destruct Hok as [H1 H2 H3 H4]. split; try done. intros c'. cbn. intros [->%bool_decide_eq_true|H]%orb_true_iff; [congruence|auto].
Qed.
Lemma call_task_other p' t : p' ≠ p -> task_ok p' tr t -> task_ok p' (QECall c v :: tr) t.
Proof.
  intros Hne. assert (c ∉ callbacks p' tr) as Hc. { intros Hc. destruct (y_own _ _ Hok _ _ Hc) as [k' Hk]. congruence. }
  assert (fresh p' (QECall c v :: tr) = fresh p' tr) as Hf. { unfold fresh. cbn [callbacks]. by apply call_all. }
  destruct t; unfold task_ok; rewrite ?Hf; cbn [has_task outcome callbacks]; rewrite ?call_uncalled by done; done.
Qed.
Lemma call_fresh : c ∈ callbacks p tr -> fresh p (QECall c v :: tr) = false.
Proof.
  intros Hc. unfold fresh. cbn [callbacks]. apply not_true_iff_false. rewrite forallb_forall. intros H. specialize (H c). cbn in H.
  rewrite bool_decide_eq_true_2 in H by done. apply elem_of_list_In in Hc. by specialize (H Hc).
Qed.
End call.
(** The oldest callback not called. *)
Lemma uncalled_head tr l c cs : uncalled tr l = c :: cs -> NoDup l -> c ∈ l ∧ called c tr = false ∧ ∀ v, uncalled (QECall c v :: tr) l = cs.
Proof.
  induction l as [|d l IH]; [done|]. intros H [Hd Hn]%list.NoDup_cons. unfold uncalled in H. cbn [List.filter] in H. destruct (called d tr) eqn:E; cbn in H.
  - destruct (IH H Hn) as (H1 & H2 & H3). split; [by right|]. split; [done|]. intros v. unfold uncalled. cbn [List.filter].
    replace (called d (QECall c v :: tr)) with true by (cbn; by rewrite E, orb_true_r). cbn [negb]. apply H3.
  - injection H as -> H. split; [left|]. split; [done|]. intros v. rewrite call_first; [done|]. by constructor.
Qed.
Lemma fresh_uncalled p tr : fresh p tr = true -> uncalled tr (callbacks p tr) = callbacks p tr.
Proof.
  unfold fresh, uncalled. induction (callbacks p tr) as [|c l IH]; [done|]. cbn. intros [-> Hl]%andb_true_iff. by rewrite IH.
Qed.

(** [run] preserves the invariant: the callback is the oldest one of a finished task, or the only one. *)
Lemma run_tr c v s : (∀ l, q_dead s l = killed l (q_tr s)) -> q_tr (run c v s) = effect (c_id c) (c_kind c) v (q_tr s) ++ q_tr s.
Proof. intros H. unfold run, effect. destruct (c_kind c) as [|l]; [done|]. cbn. rewrite H. by destruct (killed l (q_tr s)). Qed.
Lemma inv_mute s e : qinv s -> mute e = true -> holders (e :: q_tr s) = holders (q_tr s) -> broken (e :: q_tr s) = broken (q_tr s) -> (∀ l, killed l (e :: q_tr s) = killed l (q_tr s)) -> qinv (qsay e s).
Proof.
  intros [H1 H2 H3 H4 H5 H6] He Hh Hb Hk. split; cbn [qsay q_hand q_tr q_dead q_bad q_priv q_cont q_task].
  - by rewrite Hh.
  - intros l. by rewrite Hk.
  - by rewrite Hb.
  - intros p Hp. apply H4. by destruct e.
  - by apply mute_cb.
  - intros p. by apply mute_task.
Qed.
Lemma inv_run s c v : qinv (qsay (QECall (c_id c) v) s) -> qinv (run c v s).
Proof.
  intros Hi. unfold run. destruct (c_kind c) as [|l]; [done|]. destruct (q_dead _ l); [done|]. by apply inv_mute.
Qed.
Lemma inv_call s c v p k t0 t : qinv (qset p t0 s) -> owner c (q_tr s) = Some (p, k) -> called c (q_tr s) = false -> task_ok p (QECall c v :: q_tr s) t -> qinv (qsay (QECall c v) (qset p t s)).
Proof.
  intros [H1 H2 H3 H4 H5 H6] Ho Hc Ht. split; cbn [qsay qset q_hand q_tr q_dead q_bad q_priv q_cont q_task] in *; try done.
  - by eapply call_cb.
  - intros p'. specialize (H6 p'). destruct (decide (p' = p)) as [->|Hne]; [done|]. by eapply call_task_other.
Qed.
Lemma inv_set s p t : qinv s -> task_ok p (q_tr s) t -> qinv (qset p t s).
Proof.
  intros [H1 H2 H3 H4 H5 H6] Ht. split; cbn [qset q_hand q_tr q_dead q_bad q_priv q_cont q_task]; try done. intros p'. by destruct (decide (p' = p)) as [->|].
Qed.
Lemma inv_unset s p t : qinv (qset p t s) -> q_task s p = t -> qinv s.
Proof.
  intros [H1 H2 H3 H4 H5 H6] Ht. split; cbn [qset q_hand q_tr q_dead q_bad q_priv q_cont q_task] in *; try done. intros p'. specialize (H6 p'). destruct (decide (p' = p)) as [->|]; [by rewrite Ht|done].
Qed.
(** The oldest callback of a finished task runs. *)
Lemma inv_next s p v c cs : qinv (qset p (QFinished v (c :: cs)) s) -> qinv (run c v (qset p (QFinished None cs) s)).
Proof.
  intros Hi. apply inv_run. pose proof (x_task _ Hi p) as Ht. pose proof (x_cb _ Hi) as Hcb. cbn [qset q_tr q_task q_cont] in *. rewrite decide_True in Ht by done.
  destruct Ht as (G1 & r & G2 & G3 & G4 & G5). cbn in G3.
  destruct (uncalled_head (q_tr s) _ _ _ (eq_sym G3) (y_nd _ _ Hcb p)) as (K1 & K2 & K3).
  apply (inv_call s (c_id c) v p (c_kind c) (QFinished v (c :: cs))); [done|apply G5; left|done|].
  split; [done|]. exists r. split; [done|]. split; [cbn [callbacks]; symmetry; apply K3|]. split; [by rewrite (call_fresh (q_tr s))|].
  intros d Hd. apply G5. by right.
Qed.

(** then() or await() registers a callback. *)
Lemma register_cb n tr p k : cb_ok n tr -> cb_ok (S n) (QERegister p n k :: tr).
Proof.
  intros [H1 H2 H3 H4]. assert (owner n tr = None) as Hn. { destruct (owner n tr) eqn:E; [|done]. assert (n < n) by (apply H2; congruence). lia. }
  split.
  - intros p' c. cbn. destruct (decide (p = p')) as [<-|].
    + rewrite elem_of_app, elem_of_list_singleton. intros [Hc| ->]; [|rewrite decide_True by done; eauto].
      destruct (H1 _ _ Hc) as [k' Hk]. rewrite decide_False by (intros <-; congruence). eauto.
    + intros Hc. destruct (H1 _ _ Hc) as [k' Hk]. rewrite decide_False by (intros <-; congruence). eauto.
  - intros c. cbn. destruct (decide (n = c)) as [<-|]; [lia|]. intros Hc. apply H2 in Hc. lia.
  - intros c Hc. cbn. destruct (decide (n = c)); [done|]. by apply H3.
  - intros p'. cbn. destruct (decide (p = p')) as [<-|]; [|done]. apply NoDup_app. split_and!; [done| |apply NoDup_singleton].
    intros c Hc Hc'%elem_of_list_singleton. subst c. destruct (H1 _ _ Hc) as [k' Hk]. congruence.
Qed.
Lemma register_kinds n tr p p' k cs : cb_ok n tr -> kinds p' tr cs -> kinds p' (QERegister p n k :: tr) cs.
Proof.
  intros Hok Hk c Hc. cbn. rewrite decide_False; [by apply Hk|]. intros ->. specialize (Hk _ Hc). assert (c_id c < c_id c) by (apply (y_lt _ _ Hok); congruence). lia.
Qed.
Lemma register_other n tr p p' k t : cb_ok n tr -> p' ≠ p -> task_ok p' tr t -> task_ok p' (QERegister p n k :: tr) t.
Proof.
  intros Hok Hne. assert (callbacks p' (QERegister p n k :: tr) = callbacks p' tr) as Hcb by (cbn; by rewrite decide_False by congruence).
  assert (fresh p' (QERegister p n k :: tr) = fresh p' tr) as Hf by (unfold fresh; by rewrite Hcb).
  destruct t as [|cs|v cs|]; unfold task_ok; rewrite ?Hcb, ?Hf; [done| | |done].
  - intros (?&?&?&?&?). split_and!; try done. by apply register_kinds.
  - intros (? & r & ?&?&?&?). split; [done|]. exists r. split_and!; try done. by apply register_kinds.
Qed.
Lemma fresh_new n tr : cb_ok n tr -> called n tr = false.
Proof. intros Hok. destruct (called n tr) eqn:E; [|done]. assert (n < n) by (apply (y_lt _ _ Hok), (y_call _ _ Hok); done). lia. Qed.
Lemma fresh_register n tr p k : cb_ok n tr -> fresh p (QERegister p n k :: tr) = fresh p tr ∧ uncalled (QERegister p n k :: tr) (callbacks p (QERegister p n k :: tr)) = uncalled tr (callbacks p tr) ++ [n].
Proof.
  intros Hok. unfold fresh, uncalled. cbn [callbacks]. rewrite decide_True by done. pose proof (fresh_new n tr Hok) as Hn. split.
  - rewrite forallb_app. cbn. rewrite Hn. cbn. by rewrite andb_true_r.
  - rewrite List.filter_app. cbn. by rewrite Hn.
Qed.
(** The state after the registration, before the callback is stored or run. *)
Definition registered (p : nat) (k : ckind) (s : qst) : qst :=
  Qst (q_hand s) (q_task s) (q_dead s) (q_priv s) (S (q_cont s)) (q_lis s) (q_bad s) (QERegister p (q_cont s) k :: q_tr s).
Lemma inv_attach s p k : qinv s -> q_task s p ≠ QNone -> qinv (attach p k s).
Proof.
  intros Hi Hn. pose proof Hi as [H1 H2 H3 H4 H5 H6].
  assert (∀ t, task_ok p (QERegister p (q_cont s) k :: q_tr s) t -> qinv (qset p t (registered p k s))) as Hreg.
  { intros t Ht. split; cbn [registered qset q_hand q_tr q_dead q_bad q_priv q_cont q_task]; try done.
    - intros p' Hp'. apply H4. cbn in Hp'. destruct (decide (p = p')) as [<-|]; [|done]. left.
      specialize (H6 p). destruct (q_task s p); [done|apply H6|apply H6|apply H6].
    - by apply register_cb.
    - intros p'. destruct (decide (p' = p)) as [->|Hne]; [done|]. by apply register_other. }
  destruct (fresh_register (q_cont s) (q_tr s) p k H5) as [Hf Hu]. specialize (H6 p).
  assert (callbacks p (QERegister p (q_cont s) k :: q_tr s) = callbacks p (q_tr s) ++ [q_cont s]) as Hcb by (cbn; by rewrite decide_True).
  unfold attach. fold (registered p k s). cbn zeta. change (q_task (registered p k s) p) with (q_task s p). destruct (q_task s p) as [|cs|v cs|] eqn:Et; [done| | |].
  - apply Hreg. destruct H6 as (G1 & G2 & G3 & G4 & G5). unfold task_ok. rewrite Hf, Hcb, fmap_app, G3. split_and!; try done.
    intros c [Hc| ->%elem_of_list_singleton]%elem_of_app; [by apply (register_kinds (q_cont s) (q_tr s) p p k cs H5 G5 c Hc)|]. cbn. by rewrite decide_True.
  - destruct H6 as (G1 & r & G2 & G3 & G4 & G5). apply inv_run.
    assert (called (q_cont s) (q_tr s) = false) as Hnew by (by eapply fresh_new).
    apply (inv_call (registered p k s) (q_cont s) v p k (QFinished v (cs ++ [Cont (q_cont s) k])) (QFinished None cs)).
    + apply Hreg. unfold task_ok. rewrite Hf, Hu, fmap_app, G3. split; [done|]. exists r. split_and!; try done.
      intros c [Hc| ->%elem_of_list_singleton]%elem_of_app; [by apply (register_kinds (q_cont s) (q_tr s) p p k cs H5 G5 c Hc)|]. cbn. by rewrite decide_True.
    + cbn. by rewrite decide_True.
    + cbn. done.
    + cbn [qset registered q_tr]. unfold task_ok. split; [done|]. exists r. split; [done|].
      assert (q_cont s ∉ callbacks p (q_tr s)) as Hni. { intros Hc. destruct (y_own _ _ H5 _ _ Hc) as [k' Hk']. assert (q_cont s < q_cont s) by (apply (y_lt _ _ H5); congruence). lia. }
      split_and!.
      * cbn [callbacks]. rewrite decide_True by done. unfold uncalled. rewrite List.filter_app. cbn [List.filter].
        replace (called (q_cont s) (QECall (q_cont s) v :: QERegister p (q_cont s) k :: q_tr s)) with true by (cbn; by rewrite bool_decide_eq_true_2). cbn [negb]. rewrite app_nil_r.
        rewrite G3. symmetry. apply (call_uncalled (q_tr s) (q_cont s) v (callbacks p (q_tr s)) Hni).
      * rewrite (call_fresh (QERegister p (q_cont s) k :: q_tr s)); [done|]. rewrite Hcb. apply elem_of_app. right. by left.
      * intros c Hc. apply (register_kinds (q_cont s) (q_tr s) p p k cs H5 G5 c Hc).
  - apply (inv_unset _ p QFailed); [|done]. apply Hreg. destruct H6 as (G1 & G2 & G3). unfold task_ok. by rewrite Hf.
Qed.

(** A task finishes. *)
Lemma inv_done s p v cs : qinv s -> q_task s p = QPending cs -> qinv (qset p (QFinished (Some v) cs) (qsay (QEDone p v) s)).
Proof.
  intros [H1 H2 H3 H4 H5 H6] Et. pose proof (H6 p) as Hp. rewrite Et in Hp. destruct Hp as (G1 & G2 & G3 & G4 & G5).
  split; cbn [qset qsay q_hand q_tr q_dead q_bad q_priv q_cont q_task]; try done.
  - intros p' Hp'. apply H4. cbn in Hp'. destruct (decide (p = p')) as [<-|]; [auto|done].
  - destruct H5 as [K1 K2 K3 K4]. by split.
  - intros p'. destruct (decide (p' = p)) as [->|Hne].
    + split; [done|]. exists v. split; [cbn; by rewrite decide_True|]. change (fresh p (QEDone p v :: q_tr s)) with (fresh p (q_tr s)). rewrite G4. split_and!; try done.
      change (c_id <$> cs = uncalled (q_tr s) (callbacks p (q_tr s))). by rewrite fresh_uncalled.
    + specialize (H6 p'). destruct (q_task s p'); unfold task_ok in *; cbn [outcome]; rewrite ?decide_False by congruence; done.
Qed.
Lemma inv_fail s p cs : qinv s -> q_task s p = QPending cs -> qinv (qset p QFailed (qsay (QEFail p) s)).
Proof.
  intros [H1 H2 H3 H4 H5 H6] Et. pose proof (H6 p) as Hp. rewrite Et in Hp. destruct Hp as (G1 & G2 & G3 & G4 & G5).
  split; cbn [qset qsay q_hand q_tr q_dead q_bad q_priv q_cont q_task]; try done.
  - intros p' Hp'. apply H4. cbn in Hp'. destruct (decide (p = p')) as [<-|]; [auto|done].
  - destruct H5 as [K1 K2 K3 K4]. by split.
  - intros p'. destruct (decide (p' = p)) as [->|Hne].
    + split; [done|]. split; [cbn; by rewrite decide_True|done].
    + specialize (H6 p'). destruct (q_task s p'); unfold task_ok in *; cbn [outcome]; rewrite ?decide_False by congruence; done.
Qed.
(** Objects come and go. *)
Lemma inv_create s h : qinv s -> qinv (qset (q_priv s) (QPending []) (Qst ((h, q_priv s) :: q_hand s) (q_task s) (q_dead s) (S (q_priv s)) (q_cont s) (q_lis s) (q_bad s) (QECreate h (q_priv s) :: q_tr s))).
Proof.
  intros [H1 H2 H3 H4 H5 H6].
  assert (callbacks (q_priv s) (q_tr s) = [] ∧ outcome (q_priv s) (q_tr s) = None) as [Hc Ho].
  { specialize (H4 (q_priv s)). split.
    - destruct (callbacks (q_priv s) (q_tr s)); [done|]. assert (q_priv s < q_priv s) by (apply H4; right; by left). lia.
    - destruct (outcome (q_priv s) (q_tr s)); [|done]. assert (q_priv s < q_priv s) by (apply H4; right; by right). lia. }
  split; cbn [qset qsay q_hand q_tr q_dead q_bad q_priv q_cont q_task]; try done.
  - cbn. by rewrite H1.
  - intros p' Hp'. cbn in Hp'. destruct (decide (q_priv s = p')) as [<-|Hne]; [lia|]. rewrite bool_decide_eq_false_2 in Hp' by done. cbn in Hp'. apply H4 in Hp'. lia.
  - destruct H5 as [K1 K2 K3 K4]. by split.
  - intros p'. destruct (decide (p' = q_priv s)) as [->|Hne].
    + split; [cbn; by rewrite bool_decide_eq_true_2|]. split; [done|]. cbn [callbacks]. rewrite Hc. split; [done|]. split; [unfold fresh; cbn [callbacks]; by rewrite Hc|]. by intros ? ?%elem_of_nil.
    + specialize (H6 p'). destruct (q_task s p'); unfold task_ok in *; cbn [has_task]; rewrite ?bool_decide_eq_false_2 by congruence; done.
Qed.
Lemma inv_objects s e hand dead bad priv lis : qinv s -> mute e = true -> q_priv s <= priv -> hand = holders (e :: q_tr s) -> (∀ l, dead l = killed l (e :: q_tr s)) -> bad = broken (e :: q_tr s) ->
  qinv (Qst hand (q_task s) dead priv (q_cont s) lis bad (e :: q_tr s)).
Proof.
  intros [H1 H2 H3 H4 H5 H6] He Hp Hh Hd Hb. split; cbn [q_hand q_tr q_dead q_bad q_priv q_cont q_task]; try done.
  - intros p Hx. enough (p < q_priv s) by lia. apply H4. by destruct e.
  - by apply mute_cb.
  - intros p. by apply mute_task.
Qed.
Lemma inv_lis s lis : qinv s -> qinv (Qst (q_hand s) (q_task s) (q_dead s) (q_priv s) (q_cont s) lis (q_bad s) (q_tr s)).
Proof. intros [H1 H2 H3 H4 H5 H6]. by split. Qed.
Lemma inv_bad s h : qinv s -> qinv (qbad h s).
Proof. intros Hi. pose proof Hi as [H1 H2 H3 H4 H5 H6]. apply inv_objects; done. Qed.

Lemma qinv_step s s' x : qinv s -> qperform x s = Some s' -> qinv s'.
Proof.
  intros Hi. pose proof Hi as [H1 H2 H3 H4 H5 H6]. unfold qperform. destruct (q_bad s) eqn:Eb; [done|]. destruct x as [h|h|h h'|h|h ca|h iv|p v|p|p|l].
  - destruct (private h s); [done|]. intros [= <-]. rewrite <- Eb. by apply inv_create.
  - destruct (private h s); [done|]. intros [= <-]. apply inv_objects; try done; [lia|]. cbn. by rewrite H1.
  - destruct (private h s); [done|]. destruct (private h' s); [|done]. intros [= <-]. apply inv_objects; try done. cbn. by rewrite H1.
  - intros [= <-]. apply inv_objects; try done. cbn. by rewrite H1.
  - destruct (private h s) as [p|]; [|done]. intros [= <-]. destruct (decide (users p s = 1)); [|by apply inv_bad].
    destruct (q_task s p) eqn:Et; [by apply inv_mute| | |]; (destruct ca; [|by apply inv_mute]); apply inv_attach; congruence.
  - destruct (private h s) as [p|]; [|done]. intros [= <-]. rewrite <- Eb. set (s1 := Qst _ _ _ _ _ _ _ _). assert (qinv s1) as Hi1 by (by apply inv_lis).
    set (s2 := match iv with Some _ => _ | None => s1 end). assert (qinv s2 ∧ q_task s2 = q_task s) as [Hi2 Et2]. { unfold s2. destruct iv; [|done]. split; [by apply inv_mute|done]. }
    destruct (decide (users p s2 = 1)); [|by apply inv_bad]. destruct (q_task s2 p) eqn:Et; [by apply inv_bad| | |]; apply inv_attach; congruence.
  - destruct (q_task s p) as [|[|c cs]| |] eqn:Et; try done; intros [= <-]; [by apply inv_done|]. apply inv_next. by apply inv_done.
  - destruct (q_task s p) as [|cs| |] eqn:Et; try done; intros [= <-]. by eapply inv_fail.
  - destruct (q_task s p) as [| |v [|c cs]|] eqn:Et; try done; intros [= <-]. apply inv_next. apply inv_set; [done|]. rewrite <- Et. apply H6.
  - destruct (decide (l < q_lis s)); [|done]. intros [= <-]. apply inv_objects; try done. intros l'. cbn. rewrite <- H2.
    destruct (decide (l' = l)) as [->|]; [by rewrite bool_decide_eq_true_2|by rewrite bool_decide_eq_false_2].
Qed.
Lemma qreach_inv s : qreach s -> qinv s.
Proof.
  induction 1 as [|s s' x Hr IH Hx]; [|by eapply qinv_step]. split; try done; cbn.
  - intros p [|[|]]; done.
  - split; cbn; try done; [by intros p c ?%elem_of_nil|]. intros _. constructor.
Qed.

(** ** Every event of a history is justified by what happened before it. *)
Definition justified (e : qev) (tr : list qev) : Prop :=
  match e with
  | QECall c v => called c tr = false ∧ ∃ p k r, owner c tr = Some (p, k) ∧ c ∈ callbacks p tr ∧ outcome p tr = Some (Some r) ∧ v = (if fresh p tr then Some r else None)
  | QESet l v => killed l tr = false ∧ (known l tr = false ∧ v ≠ None ∨ ∃ c p tr', tr = QECall c v :: tr' ∧ owner c tr' = Some (p, KListen l))
  | QERegister p c k => owner c tr = None ∧ has_task p tr = true ∧ match k with KListen l => killed l tr = false | KJs => True end
  | QEDone p _ | QEFail p => outcome p tr = None ∧ has_task p tr = true
  | _ => True
  end.
Fixpoint all_justified (tr : list qev) : Prop := match tr with [] => True | e :: tr => justified e tr ∧ all_justified tr end.
Lemma justified_at tr post e pre : all_justified tr -> tr = post ++ e :: pre -> justified e pre.
Proof. revert tr. induction post as [|x post IH]; intros tr H ->; cbn in H; [apply H|]. destruct H. by eapply IH. Qed.
Definition lis_ok (n : nat) (tr : list qev) : Prop := ∀ l, known l tr = true -> l < n.
Lemma killed_known l tr : killed l tr = true -> known l tr = true.
Proof. induction tr as [|[] tr IH]; try done; cbn; [destruct k; [done|]|destruct (bool_decide _); done|destruct (bool_decide _); done]. intros H. by rewrite IH, orb_true_r. Qed.
Lemma owner_known c p l tr : owner c tr = Some (p, KListen l) -> known l tr = true.
Proof.
  induction tr as [|[] tr IH]; try done; cbn.
  - destruct (decide (c0 = c)) as [->|]; [intros [= -> ->]; by rewrite bool_decide_eq_true_2|]. intros H. destruct k; [by apply IH|by rewrite IH, orb_true_r].
  - intros H. by rewrite IH, orb_true_r.
  - intros H. by rewrite IH, orb_true_r.
Qed.
Definition jinv (s : qst) : Prop := all_justified (q_tr s) ∧ lis_ok (q_lis s) (q_tr s).
Lemma run_just s c v p :
  (∀ l, q_dead s l = killed l (q_tr s)) -> jinv s -> owner (c_id c) (q_tr s) = Some (p, c_kind c) -> justified (QECall (c_id c) v) (q_tr s) -> jinv (run c v s).
Proof.
  intros Hd [H1 H2] Ho Hj. unfold run. destruct (c_kind c) as [|l] eqn:Ek; [by split|]. cbn [qsay q_dead]. rewrite Hd. destruct (killed l (q_tr s)) eqn:El; [by split|].
  split; cbn [qsay q_tr q_lis all_justified]; [split; [|by split]|].
  - split; [done|]. right. eauto 10.
  - intros l' Hl'. cbn in Hl'. apply orb_true_iff in Hl' as [<-%bool_decide_eq_true|Hl']; [|by apply H2]. apply H2. by eapply owner_known.
Qed.
Lemma next_just s p v c cs : qinv (qset p (QFinished v (c :: cs)) s) -> jinv s -> jinv (run c v (qset p (QFinished None cs) s)).
Proof.
  intros Hi Hj. pose proof (x_task _ Hi p) as Ht. pose proof (x_cb _ Hi) as Hcb. cbn [qset q_tr q_task q_cont] in *. rewrite decide_True in Ht by done.
  destruct Ht as (G1 & r & G2 & G3 & G4 & G5). cbn in G3.
  destruct (uncalled_head (q_tr s) _ _ _ (eq_sym G3) (y_nd _ _ Hcb p)) as (K1 & K2 & K3).
  assert (owner (c_id c) (q_tr s) = Some (p, c_kind c)) as Ho by (apply G5; left).
  eapply run_just; [apply (x_dead _ Hi)|done|done|]. split; [done|]. exists p, (c_kind c), r. split_and!; done.
Qed.
Lemma attach_just s p k : qinv s -> jinv s -> q_task s p ≠ QNone -> match k with KListen l => l < q_lis s ∧ killed l (q_tr s) = false | KJs => True end -> jinv (attach p k s).
Proof.
  intros Hi [J1 J2] Hn Hk. pose proof Hi as [H1 H2 H3 H4 H5 H6]. specialize (H6 p).
  assert (owner (q_cont s) (q_tr s) = None) as Hno. { destruct (owner _ _) eqn:E; [|done]. assert (q_cont s < q_cont s) by (apply (y_lt _ _ H5); congruence). lia. }
  assert (jinv (registered p k s)) as Hr.
  { split; cbn [registered q_tr q_lis all_justified].
    - split; [|done]. split; [done|]. split; [destruct (q_task s p); [done|apply H6..]|destruct k; [done|apply Hk]].
    - intros l' Hl'. cbn in Hl'. destruct k as [|l]; [by apply J2|]. apply orb_true_iff in Hl' as [<-%bool_decide_eq_true|Hl']; [apply Hk|by apply J2]. }
  unfold attach. fold (registered p k s). cbn zeta. change (q_task (registered p k s) p) with (q_task s p). destruct (q_task s p) as [|cs|v cs|] eqn:Et; [done|done| |done].
  destruct H6 as (G1 & r & G2 & G3 & G4 & G5). destruct (fresh_register (q_cont s) (q_tr s) p k H5) as [Hf Hu].
  apply (run_just _ (Cont (q_cont s) k) v p); [done|done|cbn; by rewrite decide_True|]. split; [exact (fresh_new _ _ H5)|]. exists p, k, r. cbn [c_id qset registered q_tr owner].
  rewrite decide_True by done. split_and!; try done; [|by rewrite Hf]. cbn. rewrite decide_True by done. apply elem_of_app. right. by left.
Qed.
Lemma bad_just s h : jinv s -> jinv (qbad h s).
Proof. intros [H1 H2]. by split. Qed.
Lemma say_just s e : jinv s -> match e with QEWarn _ | QEBad _ => True | _ => False end -> jinv (qsay e s).
Proof. intros [H1 H2] He. destruct e; done. Qed.
Lemma jinv_step s s' x : qinv s -> jinv s -> qperform x s = Some s' -> jinv s'.
Proof.
  intros Hi Hj. pose proof Hi as [H1 H2 H3 H4 H5 H6]. unfold qperform. destruct (q_bad s) eqn:Eb; [done|]. destruct Hj as [J1 J2] eqn:EJ. clear EJ. destruct x as [h|h|h h'|h|h ca|h iv|p v|p|p|l].
  - destruct (private h s); [done|]. by intros [= <-].
  - destruct (private h s); [done|]. by intros [= <-].
  - destruct (private h s); [done|]. destruct (private h' s); [|done]. by intros [= <-].
  - by intros [= <-].
  - destruct (private h s) as [p|]; [|done]. intros [= <-]. destruct (decide (users p s = 1)); [|done].
    destruct (q_task s p) eqn:Et; [done| | |]; (destruct ca; [|done]); apply attach_just; try done; congruence.
  - destruct (private h s) as [p|]; [|done]. intros [= <-]. rewrite <- Eb. set (s1 := Qst _ _ _ _ _ _ _ _). assert (qinv s1) as Hi1 by (by apply inv_lis).
    set (s2 := match iv with Some _ => _ | None => s1 end).
    assert (known (q_lis s) (q_tr s) = false) as Hkn. { destruct (known _ _) eqn:E; [|done]. apply J2 in E. lia. }
    assert (killed (q_lis s) (q_tr s) = false) as Hki. { destruct (killed _ _) eqn:E; [|done]. apply killed_known in E. congruence. }
    assert (qinv s2 ∧ jinv s2 ∧ q_task s2 = q_task s ∧ q_lis s2 = S (q_lis s) ∧ killed (q_lis s) (q_tr s2) = false) as (Hi2 & Hj2 & Et2 & El & Ek).
    { unfold s2. destruct iv as [i|]; (split; [first [done|by apply inv_mute]|]); (split; [|done]).
      - split; cbn [qsay s1 q_tr q_lis all_justified]; [split; [|done]|].
        + split; [done|]. by left.
        + intros l' Hl'. cbn in Hl'. apply orb_true_iff in Hl' as [<-%bool_decide_eq_true|Hl']; [lia|]. apply J2 in Hl'. lia.
      - split; [done|]. intros l' Hl'. cbn in *. apply J2 in Hl'. lia. }
    destruct (decide (users p s2 = 1)); [|by apply bad_just]. destruct (q_task s2 p) eqn:Et; [by apply bad_just| | |]; (apply attach_just; [done|done|congruence|]); (split; [lia|done]).
  - destruct (q_task s p) as [|[|c cs]| |] eqn:Et; try done; intros [= <-]; specialize (H6 p); rewrite Et in H6; destruct H6 as (G1 & G2 & _).
    + split; [|done]. cbn. done.
    + apply next_just; [by apply inv_done|]. split; [|done]. cbn. done.
  - destruct (q_task s p) as [|cs| |] eqn:Et; try done; intros [= <-]; specialize (H6 p); rewrite Et in H6; destruct H6 as (G1 & G2 & _). split; [|done]. cbn. done.
  - destruct (q_task s p) as [| |v [|c cs]|] eqn:Et; try done; intros [= <-]. apply next_just; [|done]. apply inv_set; [done|]. rewrite <- Et. apply H6.
  - destruct (decide (l < q_lis s)); [|done]. intros [= <-]. split; [done|]. intros l' Hl'. cbn in Hl'. apply orb_true_iff in Hl' as [<-%bool_decide_eq_true|Hl']; [done|by apply J2].
Qed.
Lemma qreach_just s : qreach s -> jinv s.
Proof. induction 1 as [|s s' x Hr IH Hx]; [by split|]. eapply jinv_step; [by apply qreach_inv|done|done]. Qed.

(** ** C59: the callbacks *)
Lemma calls_called c tr : calls c tr = 0 <-> called c tr = false.
Proof.
  induction tr as [|[] tr IH]; try done; cbn. destruct (decide (c0 = c)) as [->|Hne]; [rewrite bool_decide_eq_true_2 by done|rewrite bool_decide_eq_false_2 by done]; [by split|done].
Qed.
(** No callback runs twice. *)
Theorem C59_once s c : qreach s -> calls c (q_tr s) <= 1.
Proof.
  intros Hr. destruct (qreach_just s Hr) as [Hj _]. induction (q_tr s) as [|e tr IH]; [cbn; lia|]. destruct Hj as [He Hj]. specialize (IH Hj).
  destruct e; try exact IH. cbn. destruct (decide (c0 = c)) as [->|Hne]; [|done]. destruct He as [He _]. apply calls_called in He. lia.
Qed.
(** ... and once the event loop is idle every callback of a task that has a result has run. *)
Theorem C59_all s p r c : qreach s -> broken (q_tr s) = false -> settled s -> outcome p (q_tr s) = Some (Some r) -> c ∈ callbacks p (q_tr s) -> calls c (q_tr s) = 1.
Proof.
  intros Hr Hb Hs Ho Hc. pose proof (qreach_inv s Hr) as Hi. assert (calls c (q_tr s) ≠ 0); [|pose proof (C59_once s c Hr); lia]. rewrite calls_called. intros Hu.
  specialize (Hs p). pose proof (x_task _ Hi p) as Ht. unfold qperform in Hs. rewrite (x_bad _ Hi), Hb in Hs. destruct (q_task s p) as [|cs|v cs|]; [destruct Ht as (?&?&?); congruence|destruct Ht as (?&?&?&?&?); congruence| |destruct Ht as (?&?&?); congruence].
  destruct cs; [|done]. destruct Ht as (G1 & r' & G2 & G3 & _). cbn in G3. assert (c ∈ uncalled (q_tr s) (callbacks p (q_tr s))) as Hx.
  { unfold uncalled. apply elem_of_list_In, List.filter_In. split; [by apply elem_of_list_In|]. by rewrite Hu. }
  rewrite <- G3 in Hx. by apply elem_of_nil in Hx.
Qed.
Lemma owner_grows c x post pre : owner c pre = Some x -> all_justified (post ++ pre) -> owner c (post ++ pre) = Some x.
Proof.
  intros Ho. induction post as [|e post IH]; [done|]. cbn. intros [He Hj]. specialize (IH Hj). destruct e; try done. cbn. destruct (decide (c0 = c)) as [->|]; [|done]. cbn in He. destruct He. congruence.
Qed.
Lemma callbacks_grow c p post pre : c ∈ callbacks p pre -> c ∈ callbacks p (post ++ pre).
Proof. intros Hc. induction post as [|e post IH]; [done|]. destruct e; try done. cbn. destruct (decide (p0 = p)); [|done]. apply elem_of_app. by left. Qed.
Lemma callbacks_split p post pre : ∃ l, callbacks p (post ++ pre) = callbacks p pre ++ l.
Proof. induction post as [|e post [l IH]]; [exists []; by rewrite app_nil_r|]. destruct e; try (by exists l). cbn. destruct (decide (p0 = p)); [|by exists l]. exists (l ++ [c]). by rewrite IH, app_assoc. Qed.
Lemma outcome_grows p x post pre : outcome p pre = Some x -> all_justified (post ++ pre) -> outcome p (post ++ pre) = Some x.
Proof.
  intros Ho. induction post as [|e post IH]; [done|]. cbn. intros [He Hj]. specialize (IH Hj). destruct e; try done; cbn.
  - destruct (decide (p0 = p)) as [->|]; [|done]. destruct He. congruence.
  - destruct (decide (p0 = p)) as [->|]; [|done]. destruct He. congruence.
Qed.
(** A callback runs after the task ended with a value; it is passed that value if it is the only one (or the first one to run), null otherwise. *)
Theorem C59_call s post pre c v : qreach s -> q_tr s = post ++ QECall c v :: pre ->
  ∃ p k r, owner c pre = Some (p, k) ∧ outcome p pre = Some (Some r) ∧ v = (if fresh p pre then Some r else None).
Proof.
  intros Hr He. destruct (qreach_just s Hr) as [Hj _]. destruct (justified_at _ _ _ _ Hj He) as (H1 & p & k & r & H2 & H3 & H4 & H5). by exists p, k, r.
Qed.
Theorem C59_value s p c v : qreach s -> callbacks p (q_tr s) = [c] -> QECall c v ∈ q_tr s -> v ≠ None ∧ outcome p (q_tr s) = Some v.
Proof.
  intros Hr Hc (post & pre & He)%elem_of_list_split. destruct (qreach_just s Hr) as [Hj _]. pose proof (justified_at _ _ _ _ Hj He) as (H1 & p' & k & r & H2 & H3 & H4 & H5).
  assert (owner c (q_tr s) = Some (p', k)) as Ho'. { rewrite He in Hj |- *. by apply (owner_grows c (p', k) post (QECall c v :: pre)). }
  destruct (y_own _ _ (x_cb _ (qreach_inv s Hr)) p c) as [k' Ho]; [rewrite Hc; left|]. assert (p' = p) as -> by congruence.
  destruct (callbacks_split p post (QECall c v :: pre)) as [l Hl]. rewrite <- He, Hc in Hl. cbn [callbacks] in Hl.
  destruct (callbacks p pre) as [|d ds] eqn:Ecb; [by apply elem_of_nil in H3|]. injection Hl as <- Hl. symmetry in Hl. apply app_eq_nil in Hl as [-> _].
  assert (fresh p pre = true) as Hf by (unfold fresh; rewrite Ecb; cbn; by rewrite H1). rewrite Hf in H5. subst v. split; [done|]. rewrite He in Hj |- *. by apply (outcome_grows p (Some r) post (QECall c (Some r) :: pre)).
Qed.
(** If the task ends with an exception, or has not ended, no callback of it has run. *)
Theorem C59_failed s p c : qreach s -> c ∈ callbacks p (q_tr s) -> (∀ r, outcome p (q_tr s) ≠ Some (Some r)) -> calls c (q_tr s) = 0.
Proof.
  intros Hr Hc Ho. apply calls_called. pose proof (x_task _ (qreach_inv s Hr) p) as Ht. assert (fresh p (q_tr s) = true) as Hf.
  { destruct (q_task s p); [|apply Ht| |apply Ht]; [destruct Ht as (_ & _ & Ht); unfold fresh; by rewrite Ht|]. destruct Ht as (_ & r & Hx & _). by apply Ho in Hx. }
  unfold fresh in Hf. rewrite forallb_forall in Hf. apply negb_true_iff. apply Hf. by apply elem_of_list_In.
Qed.
(** A listener's value is only set while it is alive: to the intermediate value, before anything else happens to it, or to what its callback is passed. *)
Theorem C59_set s post pre l v : qreach s -> q_tr s = post ++ QESet l v :: pre ->
  killed l pre = false ∧ (known l pre = false ∧ v ≠ None ∨ ∃ c p pre', pre = QECall c v :: pre' ∧ owner c pre' = Some (p, KListen l)).
Proof. intros Hr He. destruct (qreach_just s Hr) as [Hj _]. exact (justified_at _ _ _ _ Hj He). Qed.
(** ** C59: what the operations do *)
(** A task that has not ended can; the first callback then gets the result at once. *)
Theorem C59_done s p v : qreach s -> broken (q_tr s) = false -> has_task p (q_tr s) = true -> outcome p (q_tr s) = None ->
  ∃ s', qperform (AQDone p v) s = Some s' ∧
    match callbacks p (q_tr s) with
    | [] => q_tr s' = QEDone p v :: q_tr s
    | c :: _ => ∃ k, owner c (q_tr s) = Some (p, k) ∧ q_tr s' = effect c k (Some v) (QEDone p v :: q_tr s) ++ QEDone p v :: q_tr s
    end.
Proof.
  intros Hr Hb Ht Ho. pose proof (qreach_inv s Hr) as Hi. pose proof (x_task _ Hi p) as Hp. unfold qperform. rewrite (x_bad _ Hi), Hb.
  destruct (q_task s p) as [|cs|x cs|]; [destruct Hp as (?&?&?); congruence| |destruct Hp as (?&?&?&?&?); congruence|destruct Hp as (?&?&?); congruence].
  destruct Hp as (G1 & G2 & G3 & G4 & G5). destruct cs as [|c cs]; (eexists; split; [done|]); rewrite <- G3; cbn [fmap list_fmap]; [done|].
  exists (c_kind c). split; [apply G5; left|]. rewrite run_tr; [done|]. apply (x_dead _ Hi).
Qed.
(** While there are callbacks that have not run, the event loop goes on with the oldest. *)
Theorem C59_resume s p r c : qreach s -> broken (q_tr s) = false -> outcome p (q_tr s) = Some (Some r) -> c ∈ callbacks p (q_tr s) -> called c (q_tr s) = false ->
  ∃ s' c' cs k, qperform (AQResume p) s = Some s' ∧ uncalled (q_tr s) (callbacks p (q_tr s)) = c' :: cs ∧ owner c' (q_tr s) = Some (p, k) ∧
    q_tr s' = effect c' k (if fresh p (q_tr s) then Some r else None) (q_tr s) ++ q_tr s.
Proof.
  intros Hr Hb Ho Hc Hu. pose proof (qreach_inv s Hr) as Hi. pose proof (x_task _ Hi p) as Hp. unfold qperform. rewrite (x_bad _ Hi), Hb.
  destruct (q_task s p) as [|cs|x cs|]; [destruct Hp as (?&?&?); congruence|destruct Hp as (?&?&?&?&?); congruence| |destruct Hp as (?&?&?); congruence].
  destruct Hp as (G1 & r' & G2 & G3 & G4 & G5). assert (r' = r) as -> by congruence. destruct cs as [|d cs].
  - assert (c ∈ uncalled (q_tr s) (callbacks p (q_tr s))) as Hx. { unfold uncalled. apply elem_of_list_In, List.filter_In. split; [by apply elem_of_list_In|]. by rewrite Hu. }
    rewrite <- G3 in Hx. by apply elem_of_nil in Hx.
  - eexists _, (c_id d), (c_id <$> cs), (c_kind d). split; [done|]. split; [by rewrite <- G3|]. split; [apply G5; left|]. rewrite run_tr; [by rewrite G4|]. apply (x_dead _ Hi).
Qed.
Lemma attach_tr s p k : qinv s -> has_task p (q_tr s) = true -> q_tr (attach p k s) =
  match outcome p (q_tr s) with
  | Some (Some r) => effect (q_cont s) k (if fresh p (q_tr s) then Some r else None) (q_tr s) ++ QERegister p (q_cont s) k :: q_tr s
  | _ => QERegister p (q_cont s) k :: q_tr s
  end.
Proof.
  intros Hi Ht. pose proof (x_task _ Hi p) as Hp. unfold attach. fold (registered p k s). cbn zeta. change (q_task (registered p k s) p) with (q_task s p).
  destruct (q_task s p) as [|cs|x cs|]; [destruct Hp as (?&?&?); congruence| | |].
  - by destruct Hp as (_ & -> & _).
  - destruct Hp as (G1 & r & G2 & G3 & G4 & G5). rewrite G2. rewrite run_tr; [by rewrite G4|]. apply (x_dead _ Hi).
  - by destruct Hp as (_ & -> & _).
Qed.
Lemma cont_new s : qinv s -> owner (q_cont s) (q_tr s) = None.
Proof. intros Hi. destruct (owner _ _) eqn:E; [|done]. assert (q_cont s < q_cont s) by (apply (y_lt _ _ (x_cb _ Hi)); congruence). lia. Qed.
Lemma task_none s p : qinv s -> q_task s p = QNone <-> has_task p (q_tr s) = false.
Proof.
  intros Hi. pose proof (x_task _ Hi p) as Hp. destruct (q_task s p); destruct Hp as [Hp _]; rewrite Hp; by split.
Qed.
(** then(), on the only QmlTask of its task: the function is registered; if the task has a result, it is called immediately. *)
Theorem C59_then s h p ca : qreach s -> broken (q_tr s) = false -> lookup_handle h (holders (q_tr s)) = Some p -> users_in p (holders (q_tr s)) = 1 ->
  ∃ s' c, qperform (AQThen h ca) s = Some s' ∧ owner c (q_tr s) = None ∧
    q_tr s' = if has_task p (q_tr s) && ca then
                match outcome p (q_tr s) with
                | Some (Some r) => QECall c (if fresh p (q_tr s) then Some r else None) :: QERegister p c KJs :: q_tr s
                | _ => QERegister p c KJs :: q_tr s
                end
              else QEWarn h :: q_tr s.
Proof.
  intros Hr Hb Hh Hu. pose proof (qreach_inv s Hr) as Hi. unfold qperform, private, users. rewrite (x_bad _ Hi), Hb, (x_hand _ Hi), Hh. eexists _, (q_cont s). split; [done|]. split; [by apply cont_new|].
  rewrite decide_True by done. pose proof (task_none s p Hi) as Ht. pose proof (attach_tr s p KJs Hi) as Ha. cbn [effect app] in Ha.
  destruct (q_task s p); destruct (has_task p (q_tr s)); try (by destruct Ht as [H1 H2]; specialize (H1 eq_refl)); try (by destruct Ht as [H1 H2]; specialize (H2 eq_refl)); try done; (destruct ca; [|done]); by apply Ha.
Qed.
(** await(): a new listener; its value is the intermediate value if there is one; if the task has a result, it is then set to it immediately. *)
Theorem C59_await s h p iv : qreach s -> broken (q_tr s) = false -> lookup_handle h (holders (q_tr s)) = Some p -> users_in p (holders (q_tr s)) = 1 -> has_task p (q_tr s) = true ->
  ∃ s' c l, qperform (AQAwait h iv) s = Some s' ∧ owner c (q_tr s) = None ∧ known l (q_tr s) = false ∧
    let tr := match iv with Some _ => [QESet l iv] | None => [] end ++ q_tr s in
    q_tr s' = match outcome p (q_tr s) with
              | Some (Some r) => let v := if fresh p (q_tr s) then Some r else None in QESet l v :: QECall c v :: QERegister p c (KListen l) :: tr
              | _ => QERegister p c (KListen l) :: tr
              end.
Proof.
  intros Hr Hb Hh Hu Ht. pose proof (qreach_inv s Hr) as Hi. destruct (qreach_just s Hr) as [_ J2]. unfold qperform, private, users. rewrite (x_bad _ Hi), Hb, (x_hand _ Hi), Hh.
  assert (known (q_lis s) (q_tr s) = false) as Hkn. { destruct (known _ _) eqn:E; [|done]. apply J2 in E. lia. }
  assert (killed (q_lis s) (q_tr s) = false) as Hki. { destruct (killed _ _) eqn:E; [|done]. apply killed_known in E. congruence. }
  eexists _, (q_cont s), (q_lis s). split; [done|]. split; [by apply cont_new|]. split; [done|]. cbn zeta.
  set (s1 := Qst (holders (q_tr s)) (q_task s) (q_dead s) (q_priv s) (q_cont s) (S (q_lis s)) false (q_tr s)).
  assert (qinv s1) as Hi1. { unfold s1. rewrite <- (x_hand _ Hi), <- Hb, <- (x_bad _ Hi). by apply inv_lis. }
  set (s2 := match iv with Some _ => _ | None => s1 end).
  assert (qinv s2 ∧ q_task s2 = q_task s ∧ q_cont s2 = q_cont s ∧ q_tr s2 = match iv with Some _ => [QESet (q_lis s) iv] | None => [] end ++ q_tr s ∧ users_in p (q_hand s2) = 1) as (Hi2 & E1 & E2 & E3 & E4).
  { unfold s2. destruct iv; (split; [first [done|by apply inv_mute]|done]). }
  rewrite decide_True by done. assert (q_task s2 p ≠ QNone) as Hn. { rewrite E1. intros Hx%(task_none s p Hi). congruence. }
  assert (has_task p (q_tr s2) = has_task p (q_tr s) ∧ outcome p (q_tr s2) = outcome p (q_tr s) ∧ fresh p (q_tr s2) = fresh p (q_tr s) ∧ killed (q_lis s) (q_tr s2) = false) as (F1 & F2 & F3 & F4) by (rewrite E3; by destruct iv).
  pose proof (attach_tr s2 p (KListen (q_lis s)) Hi2) as Ha. rewrite F1, F2, F3, E2 in Ha. unfold effect in Ha. rewrite F4, E3 in Ha. cbn [app] in Ha.
  destruct (q_task s2 p); [done|by apply Ha..].
Qed.

(** ** C92: is every callback passed the result? Violated: only the first one that runs *)
Theorem C92_partial s post pre c v p k r : qreach s -> q_tr s = post ++ QECall c v :: pre -> owner c pre = Some (p, k) -> outcome p pre = Some (Some r) -> v = Some r <-> fresh p pre = true.
Proof.
  intros Hr He Ho Hr'. destruct (C59_call s post pre c v Hr He) as (p' & k' & r' & H1 & H2 & H3). assert (p' = p) as -> by congruence. assert (r' = r) as -> by congruence. subst v. by destruct (fresh p pre).
Qed.
(** ** C93: can then() and await() be called on a QmlTask that has been copied? Violated: undefined behaviour (Q_UNREACHABLE), every time, as long as both copies exist *)
Theorem C93_refuted s h p : qreach s -> broken (q_tr s) = false -> lookup_handle h (holders (q_tr s)) = Some p -> users_in p (holders (q_tr s)) ≠ 1 ->
  (∀ ca, ∃ s', qperform (AQThen h ca) s = Some s' ∧ broken (q_tr s') = true) ∧ (∀ iv, ∃ s', qperform (AQAwait h iv) s = Some s' ∧ broken (q_tr s') = true).
Proof.
  intros Hr Hb Hh Hu. pose proof (qreach_inv s Hr) as Hi. unfold qperform, private, users. rewrite (x_bad _ Hi), Hb, (x_hand _ Hi), Hh. split.
  - intros ca. eexists. split; [done|]. rewrite decide_False by done. done.
  - intros iv. eexists. split; [done|]. destruct iv; cbn [qsay q_hand]; rewrite decide_False by done; done.
Qed.
(** The other direction: with the only QmlTask of a task neither is undefined behaviour. *)
Theorem C93_partial s s' h p x : qreach s -> lookup_handle h (holders (q_tr s)) = Some p -> users_in p (holders (q_tr s)) = 1 -> has_task p (q_tr s) = true ->
  (∃ ca, x = AQThen h ca) ∨ (∃ iv, x = AQAwait h iv) -> qperform x s = Some s' -> broken (q_tr s') = false.
Proof.
  intros Hr Hh Hu Ht Hx Hs. assert (broken (q_tr s) = false) as Hb. { unfold qperform in Hs. rewrite (x_bad _ (qreach_inv s Hr)) in Hs. by destruct (broken _). }
  destruct Hx as [[ca ->]|[iv ->]].
  - destruct (C59_then s h p ca Hr Hb Hh Hu) as (s1 & c & H1 & _ & H2). rewrite H1 in Hs. injection Hs as <-. rewrite H2, Ht. destruct ca; [|done]. cbn [andb]. by destruct (outcome p (q_tr s)) as [[]|].
  - destruct (C59_await s h p iv Hr Hb Hh Hu Ht) as (s1 & c & l & H1 & _ & _ & H2). rewrite H1 in Hs. injection Hs as <-. rewrite H2. destruct (outcome p (q_tr s)) as [[]|], iv; done.
Qed.
(** ** C94: is using a default-constructed QmlTask harmless? then() only prints a warning; await() is undefined behaviour *)
Theorem C94_then s h p ca : qreach s -> broken (q_tr s) = false -> lookup_handle h (holders (q_tr s)) = Some p -> users_in p (holders (q_tr s)) = 1 -> has_task p (q_tr s) = false ->
  ∃ s', qperform (AQThen h ca) s = Some s' ∧ q_tr s' = QEWarn h :: q_tr s.
Proof. intros Hr Hb Hh Hu Ht. destruct (C59_then s h p ca Hr Hb Hh Hu) as (s1 & c & H1 & _ & H2). rewrite Ht in H2. eauto. Qed.
Theorem C94_refuted s h p iv : qreach s -> broken (q_tr s) = false -> lookup_handle h (holders (q_tr s)) = Some p -> has_task p (q_tr s) = false ->
  ∃ s', qperform (AQAwait h iv) s = Some s' ∧ broken (q_tr s') = true.
Proof.
  intros Hr Hb Hh Ht. pose proof (qreach_inv s Hr) as Hi. unfold qperform, private, users. rewrite (x_bad _ Hi), Hb, (x_hand _ Hi), Hh. eexists. split; [done|]. apply (task_none s p Hi) in Ht.
  destruct iv; cbn [qsay q_hand q_task]; rewrite Ht; by destruct (decide _).
Qed.

(** ** Examples *)
Lemma qplay_reach l s : qreach s -> qreach (qplay l s).
Proof. revert s. induction l as [|x l IH]; [done|]. intros s Hr. cbn. destruct (qperform x s) as [s'|] eqn:E; [|done]. apply IH. by eapply qreach_S. Qed.
Lemma qplayed l : qreach (qplay l qml0).
Proof. apply qplay_reach. constructor. Qed.
(** A task with two callbacks, one of them a listener with an intermediate value; a second task, with a listener that is destroyed before it ends. *)
Definition ex_two := [AQCreate 0; AQThen 0 true; AQAwait 0 (Some 1); AQCreate 1; AQAwait 1 (Some 2); AQKill 1; AQDone 1 7; AQDone 0 9; AQResume 0].
Definition ex_two_tr :=
  [QESet 0 None; QECall 1 None; QECall 0 (Some 9); QEDone 0 9; QECall 2 (Some 7); QEDone 1 7; QEKill 1; QERegister 1 2 (KListen 1); QESet 1 (Some 2); QECreate 1 1;
   QERegister 0 1 (KListen 0); QESet 0 (Some 1); QERegister 0 0 KJs; QECreate 0 0].
Lemma ex_two_trace : q_tr (qplay ex_two qml0) = ex_two_tr.
Proof. vm_compute. reflexivity. Qed.
Example C59_ex : qreach (qplay ex_two qml0) ∧ q_tr (qplay ex_two qml0) = ex_two_tr.
Proof. split; [apply qplayed|exact ex_two_trace]. Qed.
(** So C92 is violated: the listener's value becomes null although the task's result is 9. *)
Theorem C92_refuted : ¬ ∀ s post pre c v p k r, qreach s -> q_tr s = post ++ QECall c v :: pre -> owner c pre = Some (p, k) -> outcome p pre = Some (Some r) -> v = Some r.
Proof.
  intros H. specialize (H (qplay ex_two qml0) [QESet 0 None] (drop 2 ex_two_tr) 1 None 0 (KListen 0) 9 (qplayed _)). rewrite ex_two_trace in H.
  assert (None = Some 9) as Hx; [|discriminate Hx]. apply H; vm_compute; reflexivity.
Qed.
(** One listener: it gets the result, whether the task ends before or after await(). *)
Example C59_ex_listener :
  q_tr (qplay [AQCreate 0; AQAwait 0 None; AQDone 0 9] qml0) = [QESet 0 (Some 9); QECall 0 (Some 9); QEDone 0 9; QERegister 0 0 (KListen 0); QECreate 0 0] ∧
  q_tr (qplay [AQCreate 0; AQDone 0 9; AQAwait 0 (Some 4)] qml0) = [QESet 0 (Some 9); QECall 0 (Some 9); QERegister 0 0 (KListen 0); QESet 0 (Some 4); QEDone 0 9; QECreate 0 0].
Proof. split; vm_compute; reflexivity. Qed.
Example C59_ex_settled : settled (qplay ex_two qml0) ∧ calls 1 (q_tr (qplay ex_two qml0)) = 1 ∧ callbacks 0 (q_tr (qplay ex_two qml0)) = [0; 1].
Proof.
  rewrite ex_two_trace. split_and!; [|vm_compute; reflexivity..]. intros p. pose proof (qreach_inv _ (qplayed ex_two)) as Hi. pose proof (x_task _ Hi p) as Ht. rewrite ex_two_trace in Ht. unfold qperform. rewrite (x_bad _ Hi), ex_two_trace.
  change (broken ex_two_tr) with false. cbn iota. destruct (q_task (qplay ex_two qml0) p) as [| |v cs|]; try done. destruct cs as [|c cs]; [done|]. exfalso. destruct Ht as (_ & r & Ho & Hc & _).
  assert (p = 0 ∨ p = 1) as [-> | ->]; [|discriminate Hc..]. unfold ex_two_tr in Ho. cbn [outcome] in Ho. destruct (decide (0 = p)); [by left|]. destruct (decide (1 = p)); [by right|]. done.
Qed.
Example C93_ex : let s := qplay [AQCreate 0; AQCopy 1 0] qml0 in qreach s ∧ broken (q_tr s) = false ∧ lookup_handle 1 (holders (q_tr s)) = Some 0 ∧ users_in 0 (holders (q_tr s)) = 2 ∧
  q_tr (qplay [AQThen 1 true] s) = [QEBad 1; QECopy 1 0; QECreate 0 0].
Proof. cbn zeta. split; [apply qplayed|]. split_and!; vm_compute; reflexivity. Qed.
(** A copy whose original is gone works. *)
Example C93_ex_moved : q_tr (qplay [AQCreate 0; AQCopy 1 0; AQDrop 0; AQThen 1 true; AQDone 0 3] qml0) = [QECall 0 (Some 3); QEDone 0 3; QERegister 0 0 KJs; QEDrop 0; QECopy 1 0; QECreate 0 0].
Proof. vm_compute; reflexivity. Qed.
Example C94_ex : let s := qplay [AQDefault 0] qml0 in qreach s ∧ has_task 0 (q_tr s) = false ∧ q_tr (qplay [AQThen 0 true; AQAwait 0 None] s) = [QEBad 0; QEWarn 0; QEDefault 0 0].
Proof. cbn zeta. split; [apply qplayed|]. split_and!; vm_compute; reflexivity. Qed.

Print Assumptions C59_once.
Print Assumptions C59_all.
Print Assumptions C59_call.
Print Assumptions C59_value.
Print Assumptions C59_failed.
Print Assumptions C59_set.
Print Assumptions C59_done.
Print Assumptions C59_resume.
Print Assumptions C59_then.
Print Assumptions C59_await.
Print Assumptions C92_partial.
Print Assumptions C92_refuted.
Print Assumptions C93_refuted.
Print Assumptions C93_partial.
Print Assumptions C94_then.
Print Assumptions C94_refuted.
