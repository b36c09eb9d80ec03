(** * C123-C125: coroutines awaiting signals of one object, possibly destroyed while they do *)
From stdpp Require Import prelude.
From Verif Require Import AwaitModel AwaitSpec AwaitFacts.

Section props.
Context {S P : Type}.
Implicit Types (s : ast S P) (w t tr : list (aev S P)) (e : aev S P).

(** What a step does to a coroutine. *)
Lemma co_step a s s' : inv s -> perform a s = Some s' -> ∀ j, a_ub s' = true ∨
  (a_co s' j = a_co s j ∧ (a_tr s' = a_tr s ∨ ∃ e, a_tr s' = e :: a_tr s ∧ about j e = false)) ∨
  (∃ v id k dl, a_co s j = CWait id k dl ∧ a_co s' j = CRun ∧ a_tr s' = EResume j v :: a_tr s ∧ a_conns s' = others id c_id (a_conns s)) ∨
  (a_co s j ≠ CDead ∧ a_co s' j = CDead ∧ a_tr s' = EDestroyed j :: a_tr s) ∨
  (∃ k sg, a_co s j = CRun ∧ a_co s' j = CWait (a_next s) k (deadline k (a_now s)) ∧ a_tr s' = EAwait j k sg :: a_tr s).
Proof.
  intros I ST j. pose proof (perform_ub _ _ _ ST) as U. unfold perform in ST. rewrite U in ST.
  assert (∀ i id v s0, a_co s0 = a_co s -> a_tr s0 = a_tr s -> a_conns s0 = a_conns s -> s' = used i id s0 (resume i id v s0) -> a_ub s' = true ∨
    (a_co s' j = a_co s j ∧ (a_tr s' = a_tr s ∨ ∃ e, a_tr s' = e :: a_tr s ∧ about j e = false)) ∨
    (∃ v id k dl, a_co s j = CWait id k dl ∧ a_co s' j = CRun ∧ a_tr s' = EResume j v :: a_tr s ∧ a_conns s' = others id c_id (a_conns s))) as RS.
  { intros i id v s0 C0 T0 N0 ->. unfold used. destruct (a_co s0 i) as [|id' k dl|] eqn:W; [by left| |by left]. destruct decide as [->|]; [|by left].
    simpl. rewrite C0, T0, N0 in *. right. destruct (decide (j = i)) as [->|Nj]; [right|left].
    - exists v, id, k, dl. rewrite upd_eq. done.
    - rewrite upd_ne by done. split; [done|]. right. eexists. split; [done|]. by apply (@about_ne S P). }
  destruct a as [i k sg|i|x p| | | |i| | ].
  - destruct (a_obj s); [|done]. destruct (a_co s i) eqn:W; [|done|done]. injection ST as <-. simpl. destruct (decide (j = i)) as [->|Nj].
    + do 4 right. exists k, sg. rewrite upd_eq. done.
    + right. left. rewrite upd_ne by done. split; [done|]. right. eexists. split; [done|]. by apply (@about_ne S P i j None).
  - destruct (a_co s i) as [|id k dl|] eqn:W; [| |done]; injection ST as <-; simpl; (destruct (decide (j = i)) as [->|Nj];
      [do 3 right; left; rewrite upd_eq; split; [congruence|done]|right; left; rewrite upd_ne by done; split; [done|]; right; eexists; split; [done|]; by apply (@about_ne S P i j None)]).
  - destruct (a_obj s); [|done]. injection ST as <-. right. left. split; [done|]. right. by eexists.
  - destruct (a_emit s) as [|[c p|] l]; [done| |].
    2:{ injection ST as <-. right. left. split; [done|]. right. by eexists. }
    injection ST as ST. destruct decide; [|subst s'; right; left; by auto]. unfold call in ST. destruct (c_kind c).
    + subst s'. right. left. by auto.
    + subst s'. right. left. by auto.
    + destruct (RS _ _ _ (set_emit l s) eq_refl eq_refl eq_refl (eq_sym ST)) as [?|[?|?]]; auto.
    + unfold used in ST. simpl in ST. destruct (a_co s (c_co c)); [subst s'; by left| |subst s'; by left]. destruct decide; [|subst s'; by left]. subst s'. right. left. by auto.
  - destruct (a_posted s) as [|[[id i] p] l]; [done|]. injection ST as ST. destruct (RS _ _ _ (set_posted l s) eq_refl eq_refl eq_refl (eq_sym ST)) as [?|[?|?]]; auto.
  - destruct (a_shots s) as [|[[id i] p] l]; [done|]. injection ST as ST. destruct (RS _ _ _ (set_shots l s) eq_refl eq_refl eq_refl (eq_sym ST)) as [?|[?|?]]; auto.
  - destruct (a_obj s); [|done]. destruct (a_co s i) as [|id k [d|]|] eqn:W; [done| |done|done]. destruct decide; [|done]. injection ST as <-.
    destruct (RS i id None s) as [?|[?|?]]; auto. unfold used. by rewrite W, decide_True.
  - injection ST as <-. right. left. split; [done|]. right. by eexists.
  - destruct (a_obj s); [|done]. injection ST as <-. right. left. split; [done|]. right. by eexists.
Qed.

Lemma susp_inv i k sg w e tr : suspended_in i k sg w (e :: tr) -> (e = EAwait i k sg ∧ w = []) ∨ (about i e = false ∧ ∃ w', w = e :: w' ∧ suspended_in i k sg w' tr).
Proof.
  intros (u & E & Q). destruct w as [|e' w]; simpl in E; injection E as -> E; [by left|right]. inversion Q; subst. split; [done|]. exists w. split; [done|]. by exists u.
Qed.

Lemma reach_susp s i k sg w : areach s -> a_ub s = false -> suspended_in i k sg w (a_tr s) -> ∃ id dl, a_co s i = CWait id k dl.
Proof.
  intros R. revert w. induction R as [|s s' a R IH ST]; intros w U Q.
  - destruct Q as (u & Q & _). by destruct w.
  - pose proof (perform_ub _ _ _ ST) as U0. pose proof (reach_inv _ R U0) as I. destruct (co_step _ _ _ I ST i) as [C|[[C T]|[(v & id & k' & dl & C1 & C2 & T & _)|[(C1 & C2 & T)|(k' & sg' & C1 & C2 & T)]]]].
    + congruence.
    + rewrite C. destruct T as [T|(e & T & A)]; rewrite T in Q; [by eapply IH|]. apply susp_inv in Q as [[-> _]|(_ & w' & _ & Q)]; [|by eapply IH]. simpl in A. by rewrite bool_decide_true in A.
    + rewrite T in Q. apply susp_inv in Q as [[? _]|(A & _)]; [done|]. simpl in A. by rewrite bool_decide_true in A.
    + rewrite T in Q. apply susp_inv in Q as [[? _]|(A & _)]; [done|]. simpl in A. by rewrite bool_decide_true in A.
    + rewrite T in Q. apply susp_inv in Q as [[[= -> ->] _]|(A & _)]; [eauto|]. simpl in A. by rewrite bool_decide_true in A.
Qed.

Lemma hits_in sg x p (w : list (aev S P)) : EEmit x p ∈ w -> sg x = true -> hits sg w ≠ [].
Proof.
  intros H X. induction w as [|e w IH]; [by apply elem_of_nil in H|]. apply elem_of_cons in H as [<-|H].
  - simpl. rewrite X. intros E. by apply app_eq_nil in E as [_ ?].
  - specialize (IH H). destruct e; simpl; try done. intros E. by apply app_eq_nil in E as [? _].
Qed.

(** ** C123 *)
Definition first_hit (sg : S -> bool) (w t : list (aev S P)) (p : P) : Prop := p ∈ hits sg w ∧ (flat t -> head (hits sg w) = Some p).

(** When a co_await returns, the coroutine had been suspended in it. It returns either the arguments of an emission of (one of) the
    awaited signals made since, and of the first one unless emissions were nested; or, only for qCoro() with a timeout, nothing, not
    before the timeout and not after the object's destruction. *)
Theorem C123_resumed s i v w0 t : areach s -> a_tr s = w0 ++ EResume i v :: t ->
  ∃ k sg w, suspended_in i k sg w t ∧
    match v with
    | Some p => first_hit sg w t p
    | None => (∃ n, k = KSignal (Some n) ∧ n ≤ ticks w) ∧ EGone ∉ t
    end.
Proof.
  intros R T. destruct (cut _ _ _ _ R T) as (a & s0 & s1 & R0 & ST & T0 & T1 & _). clear s R T w0. subst t.
  pose proof (perform_ub _ _ _ ST) as U. pose proof (reach_inv _ R0 U) as I.
  assert (∀ id k dl v, a_co s0 i = CWait id k dl ->
    (∃ p, v = Some p ∧ ((k = KDevice ∧ head (for_id id (a_shots s0)) = Some p) ∨ (k ≠ KDevice ∧ head (for_id id (a_posted s0)) = Some p) ∨ (k = KTimer ∧ id ∈ ids s0 ∧ head (pend id (a_emit s0)) = Some p)))
     ∨ (v = None ∧ (∃ d, dl = Some d ∧ d ≤ a_now s0) ∧ a_obj s0 = true) ->
    ∃ k sg w, suspended_in i k sg w (a_tr s0) ∧ match v with Some p => first_hit sg w (a_tr s0) p | None => (∃ n, k = KSignal (Some n) ∧ n ≤ ticks w) ∧ EGone ∉ a_tr s0 end) as DONE.
  { intros id k dl v' W H. destruct (v_wait _ I _ _ _ _ W) as (M & w & sg & t0 & r & E1 & E2 & E3 & E4 & E5 & E6 & E7). exists k, sg, w. split; [done|].
    assert (k ≠ KDevice -> for_id id (a_shots s0) = []) as NS by (intros; apply for_id_nil; by eapply no_shots).
    destruct H as [(p & -> & H)|(-> & (d & -> & L) & O)].
    - assert (∃ l, for_id id (a_shots s0) ++ for_id id (a_posted s0) ++ r = p :: l) as [l HL].
      { destruct H as [[K H]|[[K H]|(K & Y & H)]].
        - destruct (for_id id (a_shots s0)); [done|]. injection H as ->. by eexists.
        - rewrite NS by done. destruct (for_id id (a_posted s0)); [done|]. injection H as ->. by eexists.
        - rewrite NS by (by rewrite K). rewrite (for_id_nil id (a_posted s0)) by (eapply no_posted; [done|done|by rewrite K]). rewrite (E6 Y). destruct (pend id (a_emit s0)); [done|]. injection H as ->. by eexists. }
      rewrite HL in *. split; [rewrite E4; left|]. intros F. by rewrite (E5 F).
    - split; [|by apply (v_gone _ I)]. unfold deadline in E2. destruct k as [[n|]| | |]; try done. injection E2 as ->. exists n. split; [done|]. lia. }
  assert (∀ i' id v' sx, a_co sx = a_co s0 -> a_tr sx = a_tr s0 -> s1 = used i' id sx (resume i' id v' sx) -> i' = i ∧ v' = v ∧ ∃ k dl, a_co s0 i = CWait id k dl) as US.
  { intros i' id v' sx C X ->. unfold used in T1. destruct (a_co sx i') as [|id' k dl|] eqn:W; simpl in T1; rewrite ?X in T1; [done| |done]. rewrite C in W. destruct decide; simpl in T1; rewrite ?X in T1; [|done].
    injection T1 as -> ->. subst. eauto. }
  unfold perform in ST. rewrite U in ST. destruct a as [i' k sg|i'|x p| | | |i'| | ].
  - destruct (a_obj s0); [|done]. destruct (a_co s0 i'); try done. injection ST as <-. done.
  - destruct (a_co s0 i'); try done; injection ST as <-; done.
  - destruct (a_obj s0); [|done]. injection ST as <-. done.
  - destruct (a_emit s0) as [|[c p|] l] eqn:E; [done| |].
    2:{ injection ST as <-. done. }
    injection ST as ST. destruct decide as [Y|]; [|subst s1; simpl in T1; by apply (f_equal length) in T1; simpl in T1; lia].
    assert (c ∈ a_conns s0) as HC. { apply elem_of_list_fmap in Y as (c' & X & HC). assert (SCall c p ∈ a_emit s0) as He by (rewrite E; left). destruct (v_emit _ I c p He) as (_ & M & _). by rewrite <- (M c'). }
    unfold call in ST. destruct (c_kind c) as [to| | |] eqn:K.
    + subst s1. simpl in T1. apply (f_equal length) in T1. simpl in T1. lia.
    + subst s1. simpl in T1. apply (f_equal length) in T1. simpl in T1. lia.
    + destruct (US _ _ _ (set_emit l s0) eq_refl eq_refl (eq_sym ST)) as (<- & <- & k & dl & W). apply (DONE _ _ _ (Some p) W). left. exists p. split; [done|]. right. right.
      destruct (v_conn _ I c HC) as [_ [(dl' & w & O & _)|(O & _)]]; [|congruence]. rewrite W in O. injection O as O _. rewrite K in O. split; [done|]. split; [done|]. rewrite ?E. simpl. by rewrite decide_True.
    + unfold used in ST. simpl in ST. destruct (a_co s0 (c_co c)); [|destruct decide|]; subst s1; simpl in T1; try done. apply (f_equal length) in T1. simpl in T1. lia.
  - destruct (a_posted s0) as [|[[id i'] p] l] eqn:E; [done|]. injection ST as ST. destruct (US _ _ _ (set_posted l s0) eq_refl eq_refl (eq_sym ST)) as (<- & <- & k & dl & W).
    apply (DONE _ _ _ (Some p) W). left. exists p. split; [done|]. right. left. destruct (v_posted _ I (id, i', p)) as (_ & k' & dl' & O & K); [rewrite E; left|]. simpl in O. rewrite W in O. injection O as -> ->.
    split; [by intros ->|]. rewrite ?E. simpl. by rewrite decide_True.
  - destruct (a_shots s0) as [|[[id i'] p] l] eqn:E; [done|]. injection ST as ST. destruct (US _ _ _ (set_shots l s0) eq_refl eq_refl (eq_sym ST)) as (<- & <- & k & dl & W).
    apply (DONE _ _ _ (Some p) W). left. exists p. split; [done|]. left. destruct (v_shot _ I (id, i', p)) as (_ & (sg & O) & _); [rewrite E; left|]. simpl in O. destruct O as [(dl' & w & O & _)|(O & _)]; [|congruence].
    rewrite W in O. injection O as -> _. split; [done|]. rewrite ?E. simpl. by rewrite decide_True.
  - destruct (a_obj s0) eqn:O; [|done]. destruct (a_co s0 i') as [|id k [d|]|] eqn:W; try done. destruct decide; [|done]. injection ST as <-. simpl in T1. injection T1 as -> <-.
    apply (DONE _ _ _ None W). right. split; [done|]. split; [by exists d|done].
  - injection ST as <-. done.
  - destruct (a_obj s0); [|done]. injection ST as <-. done.
Qed.

(** An emission wakes them all: once it is over, delivering what is in the event queue resumes every coroutine that awaited the signal
    when it was made (unless it is destroyed), whatever else happens meanwhile. *)
Lemma queued_step a s s' i id k dl : inv s -> perform a s = Some s' -> a_ub s' = false -> a_co s i = CWait id k dl -> for_id id (a_shots s) ++ for_id id (a_posted s) ≠ [] ->
  (a_co s' i = CWait id k dl ∧ for_id id (a_shots s') ++ for_id id (a_posted s') ≠ []) ∨ (∃ v, a_tr s' = EResume i v :: a_tr s) ∨ a_tr s' = EDestroyed i :: a_tr s.
Proof.
  intros I ST U' W Q. pose proof (perform_ub _ _ _ ST) as U.
  destruct (co_step _ _ _ I ST i) as [C|[[C T]|[(v & id' & k' & dl' & C1 & C2 & T & _)|[(C1 & C2 & T)|(k' & sg' & C1 & C2 & T)]]]]; [congruence| |right; left; by eexists|by right; right|congruence].
  left. rewrite C. split; [done|]. destruct (v_wait _ I _ _ _ _ W) as ([_ M] & _).
  assert (∀ i' id' v s0, a_co s0 = a_co s -> a_tr s0 = a_tr s -> s' = used i' id' s0 (resume i' id' v s0) -> i' ≠ i ∧ id' ≠ id ∧ s' = resume i' id' v s0) as US.
  { intros i' id' v s0 C0 T0 E. unfold used in E. rewrite C0 in E. destruct (a_co s i') as [|id2 k2 dl2|] eqn:W2; [subst s'; done| |subst s'; done]. destruct decide as [->|]; [|subst s'; done]. subst s'. simpl in C.
    split; [|split]; [| |done].
    - intros ->. rewrite upd_eq in C. congruence.
    - intros ->. rewrite (M _ _ _ W2), upd_eq in C. congruence. }
  unfold perform in ST. rewrite U in ST. destruct a as [i' k' sg|i'|x p| | | |i'| | ].
  - destruct (a_obj s); [|done]. destruct (a_co s i'); try done. by injection ST as <-.
  - destruct (a_co s i') as [|id' k' dl'|] eqn:W'; try done; injection ST as <-; [done|]. simpl in *. destruct (decide (i' = i)) as [->|N]; [rewrite upd_eq in C; congruence|].
    rewrite for_id_others; [done|]. intros ->. by apply N, (M _ _ _ W').
  - destruct (a_obj s); [|done]. by injection ST as <-.
  - destruct (a_emit s) as [|[c p|] l] eqn:E; [done| |by injection ST as <-]. injection ST as ST. destruct decide as [Y|]; [|by subst s']. unfold call in ST. destruct (c_kind c) as [to| | |] eqn:K.
    + subst s'. simpl. rewrite for_id_app. intros [X1 X2]%app_eq_nil. apply Q. apply app_eq_nil in X2 as [X2 _]. by rewrite X1, X2.
    + subst s'. simpl. rewrite for_id_app. intros [X1 X2]%app_eq_nil. apply Q. apply app_eq_nil in X2 as [X2 _]. by rewrite X1, X2.
    + destruct (US _ _ _ (set_emit l s) eq_refl eq_refl (eq_sym ST)) as (N1 & N2 & ->). simpl. by rewrite for_id_others.
    + unfold used in ST. simpl in ST. destruct (a_co s (c_co c)); [|destruct decide|]; subst s'; simpl in *; try done.
      rewrite for_id_app. intros [X1 X2]%app_eq_nil. apply Q. apply app_eq_nil in X1 as [X1 _]. by rewrite X1, X2.
  - destruct (a_posted s) as [|[[id' i'] p] l] eqn:E; [done|]. injection ST as ST. destruct (US _ _ _ (set_posted l s) eq_refl eq_refl (eq_sym ST)) as (N1 & N2 & ->). simpl in *.
    rewrite for_id_others by done. unfold pid in Q. simpl in Q. by rewrite decide_False in Q.
  - destruct (a_shots s) as [|[[id' i'] p] l] eqn:E; [done|]. injection ST as ST. destruct (US _ _ _ (set_shots l s) eq_refl eq_refl (eq_sym ST)) as (N1 & N2 & ->). simpl in *.
    rewrite for_id_others by done. unfold pid in Q at 1. simpl in Q. by rewrite decide_False in Q.
  - destruct (a_obj s); [|done]. destruct (a_co s i') as [|id' k' [d|]|] eqn:W'; try done. destruct decide; [|done]. injection ST as <-.
    destruct (US i' id' None s eq_refl eq_refl) as (N1 & N2 & _); [unfold used; by rewrite W', decide_True|]. simpl. by rewrite for_id_others.
  - by injection ST as <-.
  - destruct (a_obj s); [|done]. by injection ST as <-.
Qed.

Lemma no_emission s : inv s -> depth (a_tr s) = 0 -> a_emit s = [].
Proof. intros I D. destruct (v_done _ I) as [[|[l E]] D2]; [done|]. rewrite D, E, filter_app, app_length in D2. simpl in D2. lia. Qed.

Lemma hit_queued s i k sg w : areach s -> a_ub s = false -> suspended_in i k sg w (a_tr s) -> hits sg w ≠ [] -> EGone ∉ a_tr s -> depth (a_tr s) = 0 ->
  k ≠ KTimer ∧ ∃ id dl, a_co s i = CWait id k dl ∧ for_id id (a_shots s) ++ for_id id (a_posted s) ≠ [].
Proof.
  intros R U Q H G D. pose proof (reach_inv _ R U) as I. destruct (reach_susp _ _ _ _ _ R U Q) as (id & dl & W).
  destruct (v_wait _ I _ _ _ _ W) as (M & w' & sg' & t0 & r & T1 & T2 & T3 & T4 & T5 & T6 & T7). destruct (susp_fun _ _ _ _ _ _ _ _ Q T1) as (_ & -> & ->).
  assert (for_id id (a_shots s) ++ for_id id (a_posted s) ≠ []) as N.
  { destruct (T7 (proj2 (v_gone _ I) G)) as [Y|[_ Y]]; [|by intros [? _]%app_eq_nil]. rewrite (T6 Y), (no_emission _ I D) in T4. simpl in T4. rewrite app_nil_r in T4. intros X. rewrite X in T4. by apply Permutation_nil_r in T4. }
  split; [|by exists id, dl]. intros ->. apply N. rewrite (for_id_nil id (a_shots s)) by (by eapply no_shots). rewrite (for_id_nil id (a_posted s)); [done|]. by eapply no_posted.
Qed.

Theorem C123_woken s i k sg w x p s' : areach s -> suspended_in i k sg w (a_tr s) -> EEmit x p ∈ w -> sg x = true -> EGone ∉ a_tr s -> depth (a_tr s) = 0 ->
  agoes s s' -> a_posted s' = [] -> a_shots s' = [] -> a_ub s' = false ->
  ∃ w', a_tr s' = w' ++ a_tr s ∧ ((∃ v, EResume i v ∈ w') ∨ EDestroyed i ∈ w').
Proof.
  intros R Q H X G D GO P0 S0 U'. assert (∀ s2, agoes s s2 -> a_ub s2 = false -> a_ub s = false) as UU.
  { intros s2 GO2. induction GO2 as [|s s2 s3 a GO2 IH ST]; [done|]. intros _. apply IH; [done..|]. by eapply perform_ub. }
  destruct (hit_queued _ _ _ _ _ R (UU _ GO U') Q (hits_in _ _ _ _ H X) G D) as (_ & id & dl & W & NE).
  assert (∀ s2, agoes s s2 -> a_ub s2 = false -> (a_co s2 i = CWait id k dl ∧ for_id id (a_shots s2) ++ for_id id (a_posted s2) ≠ []) ∨ ∃ w', a_tr s2 = w' ++ a_tr s ∧ ((∃ v, EResume i v ∈ w') ∨ EDestroyed i ∈ w')) as K.
  { intros s2 GO2. clear -R GO2 W NE. induction GO2 as [|s s2 s3 a GO2 IH ST]; [by left|]. intros U. pose proof (perform_ub _ _ _ ST) as U2. destruct (IH R W NE U2) as [[W2 N2]|(w' & T & E)].
    - destruct (goes_tr _ _ GO2) as [w' T]. destruct (queued_step _ _ _ _ _ _ _ (reach_inv _ (reach_goes _ _ R GO2) U2) ST U W2 N2) as [?|[[v E]|E]]; [by left|right|right]; eexists (_ :: w'); rewrite E, T; (split; [done|]).
      + left. exists v. left.
      + right. left.
    - right. destruct (step_tr _ _ _ ST) as [->|[e ->]]; [by exists w'|]. exists (e :: w'). rewrite T. split; [done|]. destruct E as [[v E]|E]; [left; exists v|right]; by right. }
  destruct (K s' GO U') as [[_ N]|?]; [|done]. by rewrite P0, S0 in N.
Qed.

(** co_await timer: the coroutine is not suspended any more when the emission is over. *)
Theorem C123_timer s i sg w x p : areach s -> a_ub s = false -> suspended_in i KTimer sg w (a_tr s) -> EEmit x p ∈ w -> sg x = true -> EGone ∉ a_tr s -> depth (a_tr s) ≠ 0.
Proof. intros R U Q H X G D. destruct (hit_queued _ _ _ _ _ R U Q (hits_in _ _ _ _ H X) G D) as [N _]. done. Qed.

(** qCoro() with a timeout: the coroutine can be resumed as soon as the timeout has passed, as long as the object exists. *)
Theorem C123_timeout s i n sg w : areach s -> a_ub s = false -> suspended_in i (KSignal (Some n)) sg w (a_tr s) -> n ≤ ticks w -> EGone ∉ a_tr s ->
  ∃ s', perform (AExpire i) s = Some s' ∧ a_tr s' = EResume i None :: a_tr s.
Proof.
  intros R U Q L G. pose proof (reach_inv _ R U) as I. destruct (reach_susp _ _ _ _ _ R U Q) as (id & dl & W).
  destruct (v_wait _ I _ _ _ _ W) as (M & w' & sg' & t0 & r & T1 & T2 & T3 & _). destruct (susp_fun _ _ _ _ _ _ _ _ Q T1) as (_ & -> & ->).
  unfold perform. rewrite U, (proj2 (v_gone _ I) G), W, T2. simpl. rewrite decide_True by lia. by eexists.
Qed.

(** ** C124 *)
(** Undefined behaviour needs a coroutine that was destroyed while suspended in co_await timer or co_await device. *)
Theorem C124_destroy_safe s : areach s -> a_ub s = true -> ∃ i k sg t, a_tr s = EUse i :: t ∧ (k = KTimer ∨ k = KDevice) ∧ destroyed_in i k sg t.
Proof.
  intros R U. inversion R as [|s0 s' a R0 ST]; subst; [done|]. pose proof (perform_ub _ _ _ ST) as U0.
  destruct (step_inv _ _ _ (reach_inv _ R0 U0) U0 ST) as [[? _]|[_ (i & k & sg & T & K & D)]]; [congruence|]. exists i, k, sg, (a_tr s0). split; [done|]. split; [|done]. destruct k; try done; auto.
Qed.

(** A destroyed coroutine is never resumed, and never awaits again. *)
Theorem C124_never_resumed s i w t : areach s -> a_tr s = w ++ EDestroyed i :: t -> (∀ v, EResume i v ∉ w) ∧ (∀ k sg, EAwait i k sg ∉ w).
Proof.
  intros R T. assert (∀ e, e ∈ w -> (∃ v, e = EResume i v) ∨ (∃ k sg, e = EAwait i k sg) -> False) as H.
  { intros e E X. apply elem_of_list_split in E as (w1 & w2 & ->). rewrite <- app_assoc in T. simpl in T. destruct (cut _ _ _ _ R T) as (a & s0 & s1 & R0 & ST & T0 & T1 & _).
    pose proof (perform_ub _ _ _ ST) as U. pose proof (reach_inv _ R0 U) as I. assert (a_co s0 i = CDead) as D. { apply (v_dead _ I). rewrite T0. apply elem_of_app. right. left. }
    destruct (co_step _ _ _ I ST i) as [C|[[C T2]|[(v & id' & k' & dl' & C1 & C2 & T2 & _)|[(C1 & C2 & T2)|(k' & sg' & C1 & C2 & T2)]]]]; try congruence.
    - destruct (step_inv _ _ _ I U ST) as [[? _]|[_ (j & k & sg & E & _)]]; [congruence|]. rewrite E in T1. injection T1 as <- _. destruct X as [[v X]|(k' & sg' & X)]; done.
    - rewrite T1, <- T0 in T2. destruct T2 as [T2|(e2 & T2 & A)]; [apply (f_equal length) in T2; simpl in T2; lia|]. injection T2 as <-. destruct X as [[v ->]|(k' & sg' & ->)]; simpl in A; by rewrite bool_decide_true in A. }
  split; [intros v E|intros k sg E]; eapply H; eauto.
Qed.

(** Nothing is left behind: when no coroutine is suspended, and none was destroyed in co_await timer or co_await device, the object has no
    connections of theirs and nothing is in the event queue. *)
Theorem C124_nothing_left s : areach s -> a_ub s = false -> (∀ i k sg w, ¬ suspended_in i k sg w (a_tr s)) ->
  (∀ i k sg, k = KTimer ∨ k = KDevice -> ¬ destroyed_in i k sg (a_tr s)) -> a_conns s = [] ∧ a_posted s = [] ∧ a_shots s = [].
Proof.
  intros R U NS ND. pose proof (reach_inv _ R U) as I. assert (∀ i id k sg, ¬ owned s i id k sg) as NO.
  { intros i id k sg [(dl & w & _ & Q)|(_ & K & D)]; [by apply NS in Q|]. eapply (ND i k sg); [destruct k; try done; auto|done]. }
  split; [|split].
  - destruct (a_conns s) as [|c l] eqn:E; [done|]. destruct (v_conn _ I c) as [_ O]; [rewrite E; left|]. by apply NO in O.
  - destruct (a_posted s) as [|e l] eqn:E; [done|]. destruct (v_posted _ I e) as (_ & k & dl & W & _); [rewrite E; left|]. destruct (v_wait _ I _ _ _ _ W) as (_ & w & sg & _ & _ & Q & _). by apply NS in Q.
  - destruct (a_shots s) as [|e l] eqn:E; [done|]. destruct (v_shot _ I e) as (_ & (sg & O) & _); [rewrite E; left|]. by apply NO in O.
Qed.

(** ** C125 *)
Definition stale_conn (i : nat) (c : conn S) s : Prop := c ∈ a_conns s ∧ c_co c = i ∧ cuts (c_kind c) = false ∧ a_co s i = CDead.
Definition stale_shot (i : nat) s : Prop := ∃ ev, ev ∈ a_shots s ∧ ev.1.2 = i ∧ a_co s i = CDead.

Lemma dead_step a s s' i : inv s -> perform a s = Some s' -> a_co s i = CDead -> a_ub s' = true ∨ a_co s' i = CDead.
Proof.
  intros I ST D. destruct (co_step _ _ _ I ST i) as [C|[[C T2]|[(v & id' & k' & dl' & C1 & C2 & T2 & _)|[(C1 & C2 & T2)|(k' & sg' & C1 & C2 & T2)]]]]; try congruence; [by left|]. right. congruence.
Qed.

Lemma conns_step a s s' : inv s -> perform a s = Some s' -> a_ub s' = true ∨ a_obj s' = false ∨
  (a_obj s' = a_obj s ∧ ((∃ l, a_conns s' = a_conns s ++ l) ∨ ∃ j id k dl, a_co s j = CWait id k dl ∧ a_conns s' = others id c_id (a_conns s))).
Proof.
  intros I ST. pose proof (perform_ub _ _ _ ST) as U. unfold perform in ST. rewrite U in ST.
  assert (∀ s0, a_obj s0 = a_obj s -> a_conns s0 = a_conns s -> a_obj s0 = a_obj s ∧ ((∃ l, a_conns s0 = a_conns s ++ l) ∨ ∃ j id k dl, a_co s j = CWait id k dl ∧ a_conns s0 = others id c_id (a_conns s))) as SAME.
  { intros s0 O C. split; [done|]. left. exists []. by rewrite app_nil_r. }
  assert (∀ i id s0 f, a_co s0 = a_co s -> a_obj f = a_obj s -> a_conns f = others id c_id (a_conns s) -> s' = used i id s0 f ->
     a_ub s' = true ∨ a_obj s' = false ∨ (a_obj s' = a_obj s ∧ ((∃ l, a_conns s' = a_conns s ++ l) ∨ ∃ j id k dl, a_co s j = CWait id k dl ∧ a_conns s' = others id c_id (a_conns s)))) as US.
  { intros i id s0 f C O N ->. unfold used. rewrite C. destruct (a_co s i) as [|id' k dl|] eqn:W; [by left| |by left]. destruct decide as [->|]; [|by left]. right. right. split; [done|]. right. by exists i, id, k, dl. }
  destruct a as [i k sg|i|x p| | | |i| | ].
  - destruct (a_obj s) eqn:O; [|done]. destruct (a_co s i); try done. injection ST as <-. right. right. split; [done|]. left. by eexists.
  - destruct (a_co s i) as [|id k dl|] eqn:W; try done; injection ST as <-; right; right; [by apply SAME|]. simpl. destruct (cuts k); [|by apply (SAME s)].
    split; [done|]. right. by exists i, id, k, dl.
  - destruct (a_obj s) eqn:O; [|done]. injection ST as <-. right. right. by apply SAME.
  - destruct (a_emit s) as [|[c p|] l]; [done| |injection ST as <-; right; right; by apply SAME]. injection ST as ST. destruct decide; [|subst s'; right; right; by apply SAME]. unfold call in ST. destruct (c_kind c).
    + subst s'. right. right. by apply SAME.
    + subst s'. right. right. by apply SAME.
    + refine (US _ _ (set_emit l s) _ _ _ _ (eq_sym ST)); done.
    + refine (US _ _ (set_emit l s) _ _ _ _ (eq_sym ST)); done.
  - destruct (a_posted s) as [|[[id i] p] l]; [done|]. injection ST as ST. refine (US _ _ (set_posted l s) _ _ _ _ (eq_sym ST)); done.
  - destruct (a_shots s) as [|[[id i] p] l]; [done|]. injection ST as ST. refine (US _ _ (set_shots l s) _ _ _ _ (eq_sym ST)); done.
  - destruct (a_obj s) eqn:O; [|done]. destruct (a_co s i) as [|id k [d|]|] eqn:W; try done. destruct decide; [|done]. injection ST as <-. right. right. split; [done|]. right. by exists i, id, k, (Some d).
  - injection ST as <-. right. right. by apply SAME.
  - destruct (a_obj s); [|done]. injection ST as <-. right. by left.
Qed.

Lemma stale_conn_step a s s' i c : inv s -> stale_conn i c s -> perform a s = Some s' -> a_ub s' = true ∨ a_obj s' = false ∨ (a_obj s' = a_obj s ∧ stale_conn i c s').
Proof.
  intros I (HC & CO & K & D) ST. destruct (dead_step _ _ _ _ I ST D) as [?|D']; [by left|]. destruct (conns_step _ _ _ I ST) as [?|[?|[O N]]]; [by left|by right; left|]. right. right. split; [done|].
  split; [|done]. destruct N as [[l ->]|(j & id & k & dl & W & ->)]; [apply elem_of_app; by left|]. apply conn_others. split; [done|]. intros <-.
  destruct (v_conn _ I c HC) as [[_ M] _]. pose proof (M _ _ _ W) as X. subst j. rewrite CO, D in W. done.
Qed.

Lemma stale_shot_step a s s' i : inv s -> stale_shot i s -> perform a s = Some s' -> a_ub s' = true ∨ stale_shot i s'.
Proof.
  intros I (ev & HE & CO & D) ST. destruct (dead_step _ _ _ _ I ST D) as [?|D']; [by left|]. pose proof (perform_ub _ _ _ ST) as U.
  assert (ev ∈ a_shots s' -> a_ub s' = true ∨ stale_shot i s') as OK by (intros; right; exists ev; done).
  assert (∀ i' id s0 f, ev ∈ a_shots s0 -> ev ∈ a_shots f -> s' = used i' id s0 f -> a_ub s' = true ∨ stale_shot i s') as US.
  { intros i' id s0 f H0 H ->. unfold used in *. destruct (a_co s0 i'); [by left| |by left]. destruct decide; [auto|by left]. }
  unfold perform in ST. rewrite U in ST. destruct a as [i' k sg|i'|x p| | | |i'| | ].
  - destruct (a_obj s); [|done]. destruct (a_co s i'); try done. injection ST as <-. by apply OK.
  - destruct (a_co s i'); try done; injection ST as <-; by apply OK.
  - destruct (a_obj s); [|done]. injection ST as <-. by apply OK.
  - destruct (a_emit s) as [|[c p|] l]; [done| |injection ST as <-; by apply OK]. injection ST as ST. destruct decide; [|subst s'; by apply OK]. unfold call in ST. destruct (c_kind c).
    + subst s'. by apply OK.
    + subst s'. by apply OK.
    + refine (US _ _ (set_emit l s) _ _ _ (eq_sym ST)); done.
    + refine (US _ _ (set_emit l s) _ _ _ (eq_sym ST)); [done|]. simpl. apply elem_of_app. by left.
  - destruct (a_posted s) as [|[[id i'] p] l]; [done|]. injection ST as ST. refine (US _ _ (set_posted l s) _ _ _ (eq_sym ST)); done.
  - destruct (a_shots s) as [|[[id i'] p] l] eqn:E; [done|]. injection ST as ST. apply elem_of_cons in HE as [->|HE].
    + simpl in CO. subst i'. unfold used in ST. simpl in ST. rewrite D in ST. subst s'. by left.
    + refine (US _ _ (set_shots l s) _ _ _ (eq_sym ST)); done.
  - destruct (a_obj s); [|done]. destruct (a_co s i') as [|id k [d|]|]; try done. destruct decide; [|done]. injection ST as <-. by apply OK.
  - injection ST as <-. by apply OK.
  - destruct (a_obj s); [|done]. injection ST as <-. by apply OK.
Qed.

Lemma aplay_ub l s : a_ub s = true -> a_ub (aplay l s) = true.
Proof. intros U. destruct l; simpl; [done|]. unfold perform. by rewrite U. Qed.

Lemma next_ub n s i c : inv s -> a_ub s = false -> a_obj s = true -> stale_conn i c s -> pend (c_id c) (a_emit s) ≠ [] -> length (a_emit s) ≤ n -> a_ub (aplay (replicate n ANext) s) = true.
Proof.
  revert s. induction n as [|n IH]; intros s I U O C N L.
  - destruct (a_emit s); [done|]. simpl in L. lia.
  - simpl. destruct (perform ANext s) as [s'|] eqn:ST.
    + destruct (a_ub s') eqn:U'; [by apply aplay_ub|]. destruct (step_inv _ _ _ I U ST) as [[_ I']|[? _]]; [|congruence].
      assert (∃ y, a_emit s = y :: a_emit s' ∧ ∀ p, y ≠ SCall c p ∧ ∀ c', y = SCall c' p -> c_id c' ≠ c_id c) as (y & E & NY).
      { pose proof ST as ST2. unfold perform in ST. rewrite U in ST. destruct (a_emit s) as [|[c' p|] l] eqn:E; [done| |].
        - injection ST as ST. exists (SCall c' p). assert (a_emit s' = l) as EL.
          { destruct decide; [|by subst s']. unfold call in ST. destruct (c_kind c'); try (by subst s'); unfold used in ST; simpl in ST; destruct (a_co s (c_co c')); try (by subst s'); destruct decide; by subst s'. }
          split; [by rewrite EL|]. assert (c_id c' ≠ c_id c) as NE; [|intros p'; split; [congruence|by intros c2 [= <- <-]]].
          intros X. destruct C as (HC & CO & K & D). assert (SCall c' p ∈ a_emit s) as He by (rewrite E; left). destruct (v_emit _ I c' p He) as (_ & M & _). pose proof (M _ HC (eq_sym X)) as Y. subst c'.
          rewrite decide_True in ST by (by apply elem_of_list_fmap_1). unfold call, used in ST. simpl in ST. rewrite CO, D in ST. destruct (c_kind c); try done; by subst s'.
        - injection ST as <-. exists SDone. done. }
      destruct (stale_conn_step _ _ _ _ _ I C ST) as [?|[O'|[O' C']]]; [congruence| |].
      { exfalso. clear -ST O O' U U'. unfold perform in ST. rewrite U in ST. destruct (a_emit s) as [|[c' p|] l]; [done| |injection ST as <-; simpl in O'; congruence]. injection ST as ST.
        destruct decide; [|subst s'; simpl in O'; congruence]. unfold call in ST. destruct (c_kind c'); try (subst s'; simpl in O'; congruence); unfold used in ST; simpl in ST; destruct (a_co s (c_co c')); try (subst s'; simpl in O'; congruence); destruct decide; subst s'; simpl in O'; congruence. }
      apply IH; [done|done|congruence|done| |rewrite E in L; simpl in L; lia].
      rewrite E in N. destruct y as [c' p|]; [|done]. simpl in N. rewrite decide_False in N; [done|]. by apply (NY p).
    + exfalso. unfold perform in ST. rewrite U in ST. by destruct (a_emit s) as [|[]].
Qed.

Lemma shot_ub n s i : inv s -> a_ub s = false -> stale_shot i s -> length (a_shots s) ≤ n -> a_ub (aplay (replicate n AShot) s) = true.
Proof.
  revert s. induction n as [|n IH]; intros s I U C L.
  - destruct C as (ev & HE & _). destruct (a_shots s); [by apply elem_of_nil in HE|]. simpl in L. lia.
  - simpl. destruct (perform AShot s) as [s'|] eqn:ST.
    + destruct (a_ub s') eqn:U'; [by apply aplay_ub|]. destruct (step_inv _ _ _ I U ST) as [[_ I']|[? _]]; [|congruence]. destruct (stale_shot_step _ _ _ _ I C ST) as [?|C']; [congruence|].
      apply IH; [done|done|done|]. unfold perform in ST. rewrite U in ST. destruct (a_shots s) as [|[[id i'] p] l]; [done|]. injection ST as ST. simpl in L. unfold used in ST. simpl in ST.
      destruct (a_co s i'); try (by subst s'); destruct decide; subst s'; simpl; try done; lia.
    + exfalso. destruct C as (ev & HE & _). unfold perform in ST. rewrite U in ST. destruct (a_shots s) as [|[[]]]; [by apply elem_of_nil in HE|done].
Qed.

Lemma obj_back a s s' : inv s -> perform a s = Some s' -> a_ub s' = false -> a_obj s' = true -> a_obj s = true.
Proof. intros I ST U' O. destruct (a_obj s) eqn:O0; [done|]. destruct (conns_step _ _ _ I ST) as [?|[?|[? _]]]; congruence. Qed.

(** Destroying a coroutine suspended in co_await timer, or in co_await device, leaves the object connected to the destroyed awaiter: if the
    signal is emitted afterwards, however late, running the slots is undefined behaviour. *)
Theorem C125_refuted_destroyed_then_emitted s i k sg w s1 s2 x p : areach s -> suspended_in i k sg w (a_tr s) -> k = KTimer ∨ k = KDevice ∧ hits sg w = [] ->
  perform (ADestroy i) s = Some s1 -> agoes s1 s2 -> a_ub s2 = false -> EGone ∉ a_tr s2 -> sg x = true ->
  ∃ n, a_ub (aplay (AEmit x p :: replicate n ANext) s2) = true.
Proof.
  intros R Q K ST GO U2 G X. pose proof (perform_ub _ _ _ ST) as U. pose proof (reach_inv _ R U) as I. assert (areach s1) as R1 by (by eapply areach_S). pose proof (reach_goes _ _ R1 GO) as R2. pose proof (reach_inv _ R2 U2) as I2.
  destruct (reach_susp _ _ _ _ _ R U Q) as (id & dl & W). destruct (v_wait _ I _ _ _ _ W) as (M & w' & sg' & t0 & r & T1 & T2 & T3 & T4 & T5 & T6 & T7). destruct (susp_fun _ _ _ _ _ _ _ _ Q T1) as (_ & -> & ->).
  assert (EGone ∉ a_tr s) as G0. { intros E. apply G. destruct (goes_tr _ _ GO) as [v ->]. destruct (step_tr _ _ _ ST) as [->|[e ->]]; apply elem_of_app; right; [done|]. by right. }
  assert (id ∈ ids s) as Y. { destruct (T7 (proj2 (v_gone _ I) G0)) as [?|[KD N]]; [done|]. destruct K as [->|[_ K]]; [done|]. rewrite K in T4. apply Permutation_nil_l in T4. symmetry in T4. by apply app_eq_nil in T4 as [? _]. }
  apply elem_of_list_fmap in Y as (c & -> & HC). destruct (v_conn _ I c HC) as [[_ Mc] O]. pose proof (Mc _ _ _ W) as CO. subst i.
  assert (c_kind c = k ∧ c_sig c = sg) as [Kc Sc]. { destruct O as [(dl' & w2 & O & Q2)|(O & _)]; [|congruence]. rewrite W in O. injection O as -> _. by destruct (susp_fun _ _ _ _ _ _ _ _ Q Q2) as (_ & -> & _). }
  assert (stale_conn (c_co c) c s1) as C1.
  { unfold perform in ST. rewrite U, W in ST. injection ST as <-. assert (cuts k = false) as CK by (destruct K as [->|[-> _]]; done). rewrite CK. split; [done|]. split; [done|]. rewrite Kc. split; [done|]. simpl. by rewrite upd_eq. }
  assert (∀ s2, agoes s1 s2 -> a_ub s2 = false -> a_obj s2 = true -> stale_conn (c_co c) c s2) as KEEP.
  { clear -R1 C1. intros s2 GO. revert R1 C1. induction GO as [|s s' s'' a GO IH ST]; [done|]. intros R1 C1 U O. pose proof (perform_ub _ _ _ ST) as U'. pose proof (reach_inv _ (reach_goes _ _ R1 GO) U') as I'.
    destruct (stale_conn_step _ _ _ _ _ I' (IH R1 C1 U' (obj_back _ _ _ I' ST U O)) ST) as [?|[?|[_ ?]]]; [congruence|congruence|done]. }
  pose proof (proj2 (v_gone _ I2) G) as O2. pose proof (KEEP _ GO U2 O2) as C2. simpl. unfold perform. rewrite U2, O2.
  set (s3 := log (EEmit x p) _). assert (pend (c_id c) (a_emit s3) ≠ []) as PE.
  { simpl. rewrite pend_emit; [done|apply I2| |destruct C2 as (H2 & _); by apply elem_of_list_fmap_1]. intros c2 H2 E2. assert (c2 = c) as ->; [|by rewrite Sc].
    destruct C2 as (H3 & _). pose proof (v_nodup _ I2) as N. unfold ids in N. apply elem_of_list_lookup in H2 as [n1 H2], H3 as [n2 H3].
    assert (n1 = n2) as ->. { eapply (NoDup_lookup (map c_id (a_conns s2))); [done|..]; rewrite list_lookup_fmap; [rewrite H2|rewrite H3]; simpl; by rewrite ?E2. } congruence. }
  exists (length (a_emit s3)). apply (next_ub _ _ (c_co c) c); [by apply inv_emit|done|done|done|done|done].
Qed.

(** co_await device: the same if the device was ready already, and the coroutine is only waiting to be resumed by the event loop. *)
Theorem C125_refuted_destroyed_when_ready s i sg w s1 s2 : areach s -> suspended_in i KDevice sg w (a_tr s) -> hits sg w ≠ [] -> EGone ∉ a_tr s -> depth (a_tr s) = 0 ->
  perform (ADestroy i) s = Some s1 -> agoes s1 s2 -> a_ub s2 = false -> ∃ n, a_ub (aplay (replicate n AShot) s2) = true.
Proof.
  intros R Q H G D ST GO U2. pose proof (perform_ub _ _ _ ST) as U. pose proof (reach_inv _ R U) as I. assert (areach s1) as R1 by (by eapply areach_S). pose proof (reach_goes _ _ R1 GO) as R2. pose proof (reach_inv _ R2 U2) as I2.
  destruct (hit_queued _ _ _ _ _ R U Q H G D) as (_ & id & dl & W & N). rewrite (for_id_nil id (a_posted s)), app_nil_r in N by (by eapply no_posted).
  assert (∃ ev, ev ∈ a_shots s ∧ pid ev = id) as (ev & HE & E).
  { clear -N. induction (a_shots s) as [|ev l IH]; [done|]. simpl in N. destruct decide; [exists ev; split; [left|done]|]. destruct (IH N) as (ev' & ? & ?). exists ev'. split; [by right|done]. }
  destruct (v_shot _ I ev HE) as ([_ M] & _). unfold pid in E. rewrite E in M. pose proof (M _ _ _ W) as CO.
  assert (stale_shot i s1) as C1. { unfold perform in ST. rewrite U, W in ST. injection ST as <-. exists ev. simpl. rewrite upd_eq. done. }
  exists (length (a_shots s2)). apply (shot_ub _ _ i); [done|done| |done]. clear -R1 C1 GO U2. revert R1 C1 U2.
  induction GO as [|s s' s'' a GO IH ST]; [done|]. intros R1 C1 U. pose proof (perform_ub _ _ _ ST) as U'. pose proof (reach_inv _ (reach_goes _ _ R1 GO) U') as I'.
  destruct (stale_shot_step _ _ _ _ I' (IH R1 C1 U') ST) as [?|?]; [congruence|done].
Qed.
End props.

(** ** Assumptions *)
Print Assumptions C123_resumed.
Print Assumptions C123_woken.
Print Assumptions C123_timer.
Print Assumptions C123_timeout.
Print Assumptions C124_destroy_safe.
Print Assumptions C124_never_resumed.
Print Assumptions C124_nothing_left.
Print Assumptions C125_refuted_destroyed_then_emitted.
Print Assumptions C125_refuted_destroyed_when_ready.

(** ** Concrete cases *)
Lemma aplay_reach {S P} l (s : ast S P) : areach s -> areach (aplay l s).
Proof. revert s. induction l as [|a l IH]; intros s R; simpl; [done|]. destruct (perform a s) eqn:E; [|done]. apply IH. by eapply areach_S. Qed.
Lemma aplay_goes {S P} l (s : ast S P) : agoes s (aplay l s).
Proof.
  assert (∀ s0 (s : ast S P), agoes s0 s -> agoes s0 (aplay l s)) as H; [|apply H; constructor]. induction l as [|a l IH]; intros s0 s' G; simpl; [done|]. destruct (perform a s') eqn:E; [|done]. apply IH. by eapply agoes_S.
Qed.

Lemma no_gone {S P} (tr : list (aev S P)) : existsb (λ e, match e with EGone => true | _ => false end) tr = false -> EGone ∉ tr.
Proof. intros H E. induction tr as [|e tr IH]; [by apply elem_of_nil in E|]. simpl in H. apply orb_false_iff in H as [H1 H2]. apply elem_of_cons in E as [<-|E]; [done|auto]. Qed.

(** One signal, [true]; a device's other one, [false]. *)
Definition only (b : bool) : bool -> bool := λ x, bool_decide (x = b).
Definition any : bool -> bool := λ _, true.
Definition demo (l : list (aact bool nat)) : ast bool nat := aplay l aw0.

(** Two coroutines await a signal, a third one a timer, a fourth one a device; the signal is emitted twice before the events are delivered: all get the first one. *)
Definition four : list (aact bool nat) :=
  [AAwait 1 (KSignal (Some 5)) (only true); AAwait 2 KReply (only true); AAwait 3 KTimer (only true); AAwait 4 KDevice any; AEmit true 7; ANext; ANext; ANext; ANext; ANext; AEmit true 8; ANext; ANext; ANext].
Example four_trace : a_tr (demo (four ++ [ADeliver; ADeliver; AShot])) =
  [EResume 4 (Some 7); EResume 2 (Some 7); EResume 1 (Some 7); EEmitted; EEmit true 8; EEmitted; EResume 3 (Some 7); EEmit true 7;
   EAwait 4 KDevice any; EAwait 3 KTimer (only true); EAwait 2 KReply (only true); EAwait 1 (KSignal (Some 5)) (only true)] ∧
  a_ub (demo (four ++ [ADeliver; ADeliver; AShot])) = false ∧ a_conns (demo (four ++ [ADeliver; ADeliver; AShot])) = [] ∧ a_posted (demo (four ++ [ADeliver; ADeliver; AShot])) = [].
Proof. vm_compute. done. Qed.

(** Between the emission and the delivery, the hypotheses of [C123_woken] hold for coroutine 1, and of [C123_timer] for coroutine 3 within the emission. *)
Example four_woken : ∃ w, suspended_in 1 (KSignal (Some 5)) (only true) w (a_tr (demo four)) ∧ EEmit true 7 ∈ w ∧ only true true = true ∧ EGone ∉ a_tr (demo four) ∧ depth (a_tr (demo four)) = 0 ∧
  let s' := aplay [ADeliver; ADeliver; AShot] (demo four) in agoes (demo four) s' ∧ a_posted s' = [] ∧ a_shots s' = [] ∧ a_ub s' = false.
Proof.
  exists [EEmitted; EEmit true 8; EEmitted; EResume 3 (Some 7); EEmit true 7; EAwait 4 KDevice any; EAwait 3 KTimer (only true); EAwait 2 KReply (only true)].
  split; [exists []; vm_compute; split; [done|by repeat constructor]|]. split; [do 4 right; left|]. split; [done|]. split; [by apply no_gone|]. split; [done|]. split; [apply aplay_goes|]. vm_compute. done.
Qed.
Example four_timer : ∃ w, let s := demo (take 5 four) in a_ub s = false ∧ suspended_in 3 KTimer (only true) w (a_tr s) ∧ EEmit true 7 ∈ w ∧ only true true = true ∧ EGone ∉ a_tr s.
Proof.
  exists [EEmit true 7; EAwait 4 KDevice any]. split; [done|]. split; [eexists; vm_compute; split; [done|by repeat constructor]|]. split; [left|]. split; [done|]. by apply no_gone.
Qed.
(** A timeout. *)
Example timed_out : ∃ w, let s := demo [AAwait 1 (KSignal (Some 2)) any; ATick; ATick] in
  a_ub s = false ∧ suspended_in 1 (KSignal (Some 2)) any w (a_tr s) ∧ 2 ≤ ticks w ∧ EGone ∉ a_tr s ∧ a_tr (aplay [AExpire 1] s) = EResume 1 None :: a_tr s.
Proof.
  exists [ETick; ETick]. split; [done|]. split; [eexists; vm_compute; split; [done|by repeat constructor]|]. split; [simpl; lia|]. split; [by apply no_gone|]. done.
Qed.
(** Nested emissions: the coroutine gets the arguments of the emission whose slot is called first. *)
Example nested : a_tr (demo [AAwait 2 KTimer any; AAwait 1 (KSignal None) any; AEmit true 7; ANext; AEmit true 8; ANext; ANext; ANext; ANext; ADeliver]) =
  [EResume 1 (Some 8); EEmitted; EEmitted; EEmit true 8; EResume 2 (Some 7); EEmit true 7; EAwait 1 (KSignal None) any; EAwait 2 KTimer any].
Proof. vm_compute. done. Qed.

(** Coroutines awaiting by qCoro() and a reply are destroyed, before and after the emission: nothing happens, and nothing is left. *)
Example destroyed_safely : let s := demo [AAwait 1 (KSignal None) any; AAwait 2 KReply any; ADestroy 1; AEmit true 7; ANext; ANext; ADestroy 2; AEmit true 8; ANext] in
  a_tr s = [EEmitted; EEmit true 8; EDestroyed 2; EEmitted; EEmit true 7; EDestroyed 1; EAwait 2 KReply any; EAwait 1 (KSignal None) any] ∧ a_ub s = false ∧ a_conns s = [] ∧ a_posted s = [] ∧ a_shots s = [].
Proof. vm_compute. done. Qed.

(** C125: the hypotheses of both theorems, and the runs into undefined behaviour. *)
Example destroyed_timer : ∃ s1, let s := demo [AAwait 1 KTimer any] in
  suspended_in 1 KTimer any [] (a_tr s) ∧ perform (ADestroy 1) s = Some s1 ∧ let s2 := aplay [ATick] s1 in agoes s1 s2 ∧ a_ub s2 = false ∧ EGone ∉ a_tr s2 ∧
  a_tr (aplay [AEmit true 7; ANext] s2) = [EUse 1; EEmit true 7; ETick; EDestroyed 1; EAwait 1 KTimer any].
Proof.
  eexists. split; [eexists; vm_compute; split; [done|constructor]|]. split; [vm_compute; reflexivity|]. split; [apply aplay_goes|]. split; [done|]. split; [by apply no_gone|]. done.
Qed.
Example destroyed_device : let s := demo [AAwait 1 KDevice any; AEmit true 7; ANext; ANext] in
  suspended_in 1 KDevice any [EEmitted; EEmit true 7] (a_tr s) ∧ hits any [EEmitted; EEmit true 7] = [7] ∧ depth (a_tr s) = 0 ∧ EGone ∉ a_tr s ∧
  a_tr (aplay [ADestroy 1; AShot] s) = [EUse 1; EDestroyed 1; EEmitted; EEmit true 7; EAwait 1 KDevice any].
Proof.
  split; [eexists; vm_compute; split; [done|by repeat constructor]|]. split; [done|]. split; [done|]. split; [by apply no_gone|]. done.
Qed.
