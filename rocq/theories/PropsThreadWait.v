(** * C140-C142: waiting for a QThread that starts and finishes meanwhile *)
From stdpp Require Import prelude.
From Verif Require Import ThreadWaitModel.

(** ** Vocabulary, about the trace of events (newest first) *)
(** Events of the thread. *)
Definition thr (e : hev) : Prop := match e with HStart | HSignal _ | HFinishing => True | _ => False end.
(** The last thing the thread did. *)
Fixpoint last_thr (tr : list hev) : option hev :=
  match tr with [] => None | e :: tr => match e with HStart | HSignal _ | HFinishing => Some e | _ => last_thr tr end end.
(** The thread was started and has not come to its end; it has come to its end. *)
Definition runs (tr : list hev) : Prop := last_thr tr = Some HStart ∨ last_thr tr = Some (HSignal KStarted).
Definition ended (tr : list hev) : Prop := last_thr tr = Some HFinishing ∨ last_thr tr = Some (HSignal KFinished).
(** The answers with which waitForStarted() and waitForFinished() go on. *)
Definition passed1 (k : kind) : hev := match k with KStarted => HRunning false | KFinished => HFinished false end.
Definition passed2 (k : kind) : hev := match k with KStarted => HFinished false | KFinished => HRunning true end.
(** The coroutine has called, passed the two checks, made the connection, and is suspended since; the thread did [v0], [v1], [v2] before each of these, and [w] since. *)
Definition waiting (k : kind) (t : bool) (w v2 v1 v0 tr : list hev) : Prop :=
  ∃ u, tr = w ++ HConnected :: v2 ++ passed2 k :: v1 ++ passed1 k :: v0 ++ HCall k t :: u ∧ Forall thr w ∧ Forall thr v2 ∧ Forall thr v1 ∧ Forall thr v0.
(** The coroutine is not in a call. *)
Definition elsewhere (tr : list hev) : Prop := ∃ w, Forall thr w ∧ (tr = w ∨ ∃ b u, tr = w ++ HReturn b :: u).

(** ** Invariant *)
#[local] Instance kind_dec : EqDecision kind. Proof. solve_decision. Defined.
Lemma split_inj w e l w' e' l' : Forall thr w -> Forall thr w' -> ¬ thr e -> ¬ thr e' -> w ++ e :: l = w' ++ e' :: l' -> w = w' ∧ e = e' ∧ l = l'.
Proof.
  intros F. revert w'. induction F as [|x w Hx F IH]; intros [|x' w'] F' N N' E; simpl in E.
  - by injection E as -> ->.
  - injection E as -> _. by apply Forall_cons in F' as [? _].
  - injection E as -> _. done.
  - injection E as -> E. apply Forall_cons in F' as [_ F']. by destruct (IH w' F' N N' E) as (-> & -> & ->).
Qed.
Lemma not_thr_app w e l : Forall thr (w ++ e :: l) -> ¬ thr e -> False.
Proof. intros F N. rewrite Forall_app in F. destruct F as [_ F]. by apply Forall_cons in F as [? _]. Qed.

Definition q_of (tr : list hev) : qstate :=
  match last_thr tr with Some HStart => QStarting | Some (HSignal KStarted) => QRunning | Some HFinishing => QFinishing | Some (HSignal KFinished) => QDone | _ => QNew end.
Definition pos_inv (p : hpos) (tr : list hev) : Prop :=
  match p with
  | HElse => elsewhere tr
  | HFirst k t => ∃ v0 u, tr = v0 ++ HCall k t :: u ∧ Forall thr v0
  | HSecond k t => ∃ v1 v0 u, tr = v1 ++ passed1 k :: v0 ++ HCall k t :: u ∧ Forall thr v1 ∧ Forall thr v0
  | HConnect k t => ∃ v2 v1 v0 u, tr = v2 ++ passed2 k :: v1 ++ passed1 k :: v0 ++ HCall k t :: u ∧ Forall thr v2 ∧ Forall thr v1 ∧ Forall thr v0
  | HWait k t p => ∃ w v2 v1 v0, waiting k t w v2 v1 v0 tr ∧ (p = true <-> HSignal k ∈ w)
  end.
Definition inv (s : hst) : Prop := h_q s = q_of (h_tr s) ∧ pos_inv (h_pos s) (h_tr s).

Lemma pos_thr p e tr : thr e -> (∀ k, e = HSignal k -> p = posts k p) -> pos_inv p tr -> pos_inv p (e :: tr).
Proof.
  intros T P. destruct p as [|k t|k t|k t|k t p]; simpl.
  - intros (w & F & X). exists (e :: w). split; [by constructor|]. destruct X as [->|(b & u & ->)]; [by left|right]. by exists b, u.
  - intros (v0 & u & -> & F). exists (e :: v0), u. split; [done|by constructor].
  - intros (v1 & v0 & u & -> & F & G). exists (e :: v1), v0, u. split_and!; [done|by constructor|done].
  - intros (v2 & v1 & v0 & u & -> & F & G & H). exists (e :: v2), v1, v0, u. split_and!; [done|by constructor|done..].
  - intros (w & v2 & v1 & v0 & (u & -> & F & G) & X). exists (e :: w), v2, v1, v0. split.
    + exists u. split_and!; [done|by constructor|naive_solver..].
    + rewrite elem_of_cons, X. split; [by right|]. intros [E|?]; [|done]. apply X. specialize (P k (eq_sym E)). destruct k; simpl in P; by injection P.
Qed.
Lemma pos_signal k p tr : pos_inv p tr -> pos_inv (posts k p) (HSignal k :: tr).
Proof.
  intros I. destruct p as [|k' t|k' t|k' t|k' t p]; [by apply pos_thr..|].
  destruct (decide (k = k')) as [->|N].
  - destruct I as (w & v2 & v1 & v0 & (u & -> & F & G) & X). assert (posts k' (HWait k' t p) = HWait k' t true) as -> by by destruct k'.
    exists (HSignal k' :: w), v2, v1, v0. split; [exists u; split_and!; [done|by constructor|naive_solver..]|]. split; [by left|done].
  - assert (posts k (HWait k' t p) = HWait k' t p) as -> by by destruct k, k'. apply pos_thr; [done| |done]. intros k2 [= <-]. by destruct k, k'.
Qed.

Lemma q_thr tr k : q_of (HSignal k :: tr) = match k with KStarted => QRunning | KFinished => QDone end.
Proof. by destruct k. Qed.
Lemma reach_inv s : hreach s -> inv s.
Proof.
  induction 1 as [|s s' a R [Q P] E]; [split; [done|]; exists []; split; [constructor|by left]|].
  destruct s as [q p tr]. simpl in *. unfold hperform in E. simpl in E. destruct a as [k t| | | | |].
  - destruct p; try done. injection E as <-. split; [done|]. simpl. exists [], tr. by split.
  - destruct p as [|k t|k t|k t|k t p]; try done.
    + destruct k; injection E as <-; case_match; (split; [done|]); simpl.
      * exists []. split; [constructor|]. right. by eexists _, _.
      * destruct P as (v0 & u & -> & F). exists [], v0, u. split_and!; done.
      * exists []. split; [constructor|]. right. by eexists _, _.
      * destruct P as (v0 & u & -> & F). exists [], v0, u. split_and!; done.
    + destruct k; injection E as <-; case_match; (split; [done|]); simpl.
      * exists []. split; [constructor|]. right. by eexists _, _.
      * destruct P as (v1 & v0 & u & -> & F). exists [], v1, v0, u. split_and!; [done..|apply F|apply F].
      * destruct P as (v1 & v0 & u & -> & F). exists [], v1, v0, u. split_and!; [done..|apply F|apply F].
      * exists []. split; [constructor|]. right. by eexists _, _.
    + injection E as <-. split; [done|]. simpl. destruct P as (v2 & v1 & v0 & u & -> & F). exists [], v2, v1, v0. split; [exists u; split_and!; [done..|apply F|apply F|apply F]|].
      rewrite elem_of_nil. by split.
  - destruct p as [|k t|k t|k t|k t []]; try done. injection E as <-. split; [done|]. simpl. exists []. split; [constructor|]. right. by eexists _, _.
  - destruct p as [|k t|k t|k t|k [] p]; try done. injection E as <-. split; [done|]. simpl. exists []. split; [constructor|]. right. by eexists _, _.
  - assert (s' = Hst QStarting p (HStart :: tr)) as -> by (destruct q; by simplify_eq). split; [done|]. apply pos_thr; [done|by intros|done].
  - destruct q; simplify_eq; (split; [done|]); simpl; [by apply pos_signal|apply pos_thr; [done|by intros|done]|by apply pos_signal].
Qed.

Ltac destruct_kinds := repeat match goal with k : kind |- _ => destruct k end.
Ltac nothr := let H := fresh in intros H; destruct_kinds; destruct H.
Ltac split_e E := apply split_inj in E; [|done|done|nothr|nothr]; let H := fresh in destruct E as (? & H & E);
  try (destruct_kinds; discriminate H).
(** The last event of the coroutine. *)
Lemma waiting_pos s k t w v2 v1 v0 : hreach s -> waiting k t w v2 v1 v0 (h_tr s) -> ∃ p, h_pos s = HWait k t p ∧ (p = true <-> HSignal k ∈ w).
Proof.
  intros R (u & T & Fw & F2 & F1 & F0). destruct (reach_inv _ R) as [_ P]. destruct s as [q p tr]. simpl in *. subst tr.
  destruct p as [|k' t'|k' t'|k' t'|k' t' p]; simpl in P.
  - destruct P as (w' & F & [E|(b & u' & E)]).
    + rewrite <- E in F. exfalso. eapply not_thr_app; [exact F|nothr].
    + split_e E.
  - destruct P as (v & u' & E & F). split_e E.
  - destruct P as (v & v' & u' & E & F & _). split_e E.
  - destruct P as (v & v' & v'' & u' & E & F & _). split_e E.
  - destruct P as (w' & v2' & v1' & v0' & (u' & E & Gw & G2 & G1 & G0) & X).
    destruct_kinds; simpl in *; split_e E; split_e E; split_e E; split_e E; simplify_eq; by exists p.
Qed.

(** ** What holds at every event *)
(** The answers with which they return at once. *)
Definition answer1 (k : kind) : hev := match k with KStarted => HRunning true | KFinished => HFinished true end.
Definition answer2 (k : kind) : hev := match k with KStarted => HFinished true | KFinished => HRunning false end.
(** Why a call of the function [k] returns [b]. *)
Definition reason (k : kind) (b : bool) (l : list hev) : Prop :=
  (b = true ∧ ∃ t v0 u, l = answer1 k :: v0 ++ HCall k t :: u ∧ Forall thr v0) ∨
  (b = false ∧ ∃ t v1 v0 u, l = answer2 k :: v1 ++ passed1 k :: v0 ++ HCall k t :: u ∧ Forall thr v1 ∧ Forall thr v0) ∨
  (b = true ∧ ∃ t w v2 v1 v0, waiting k t w v2 v1 v0 l ∧ HSignal k ∈ w) ∨
  (b = false ∧ ∃ w v2 v1 v0 l0, l = HTimeout :: l0 ∧ waiting k true w v2 v1 v0 l0).
Definition ok (e : hev) (l : list hev) : Prop :=
  match e with
  | HRunning b => b = true <-> runs l
  | HFinished b => b = true <-> ended l
  | HSignal KStarted => last_thr l = Some HStart
  | HSignal KFinished => last_thr l = Some HFinishing
  | HReturn b => ∃ k, reason k b l
  | _ => True
  end.
Lemma q_running tr : is_running (q_of tr) = true <-> runs tr.
Proof. unfold q_of, runs. destruct (last_thr tr) as [[| | | | | | |[]|]|]; simpl; split; first [by intros []|by intros [?|?]|intros _; first [by left|by right]|done]. Qed.
Lemma q_finished tr : is_finished (q_of tr) = true <-> ended tr.
Proof. unfold q_of, ended. destruct (last_thr tr) as [[| | | | | | |[]|]|]; simpl; split; first [by intros []|by intros [?|?]|intros _; first [by left|by right]|done]. Qed.
Lemma reach_ok s : hreach s -> ∀ l2 e l1, h_tr s = l2 ++ e :: l1 -> ok e l1.
Proof.
  induction 1 as [|s s' a R IH E]; [by intros []|].
  destruct (reach_inv _ R) as [Q P].
  assert (∀ e, h_tr s' = e :: h_tr s -> ok e (h_tr s) -> ∀ l2 e l1, h_tr s' = l2 ++ e :: l1 -> ok e l1) as One.
  { intros e T O l2 e' l1 T'. rewrite T in T'. destruct l2 as [|x l2]; [by injection T' as <- <-|]. injection T' as _ T'. by eapply IH. }
  assert (∀ e f, h_tr s' = e :: f :: h_tr s -> ok f (h_tr s) -> ok e (f :: h_tr s) -> ∀ l2 e l1, h_tr s' = l2 ++ e :: l1 -> ok e l1) as Two.
  { intros e f T O O' l2 e' l1 T'. rewrite T in T'. destruct l2 as [|x [|y l2]]; [by injection T' as <- <-|by injection T' as _ <- <-|]. injection T' as _ _ T'. by eapply IH. }
  destruct s as [q p tr]. simpl in *. subst q. unfold hperform in E. simpl in E. pose proof (q_running tr) as Qr. pose proof (q_finished tr) as Qf.
  destruct a as [k t| | | | |].
  - destruct p; try done. injection E as <-. by eapply One.
  - destruct p as [|k t|k t|k t|k t p]; try done.
    + destruct P as (v0 & u & -> & F).
      destruct k; injection E as <-; case_match; [eapply Two; [done| |]|eapply One; [done|]|eapply Two; [done| |]|eapply One; [done|]]; simpl.
      all: simpl passed1 in *; try solve [first [rewrite <- Qr|rewrite <- Qf]; by split; congruence].
      * exists KStarted. left. split; [done|]. by exists t, v0, u.
      * exists KFinished. left. split; [done|]. by exists t, v0, u.
    + destruct P as (v1 & v0 & u & -> & F1 & F0).
      destruct k; injection E as <-; case_match; [eapply Two; [done| |]|eapply One; [done|]|eapply One; [done|]|eapply Two; [done| |]]; simpl.
      all: simpl passed1 in *; try solve [first [rewrite <- Qr|rewrite <- Qf]; by split; congruence].
      * exists KStarted. right. left. split; [done|]. by exists t, v1, v0, u.
      * exists KFinished. right. left. split; [done|]. by exists t, v1, v0, u.
    + injection E as <-. by eapply One.
  - destruct p as [|k t|k t|k t|k t []]; try done. injection E as <-. destruct P as (w & v2 & v1 & v0 & W & X). eapply One; [done|]. exists k. right. right. left. split; [done|].
    exists t, w, v2, v1, v0. split; [done|]. by apply X.
  - destruct p as [|k t|k t|k t|k [] p]; try done. injection E as <-. destruct P as (w & v2 & v1 & v0 & W & X). eapply Two; [done|done|]. exists k. right. right. right. split; [done|].
    by exists w, v2, v1, v0, tr.
  - assert (s' = Hst QStarting p (HStart :: tr)) as -> by (destruct (q_of tr); by simplify_eq). by eapply One.
  - unfold q_of in E. destruct (last_thr tr) as [[| | | | | | |[]|]|] eqn:L; simplify_eq; by eapply One.
Qed.

Lemma last_thr_app w l : Forall thr w -> last_thr (w ++ l) = match w with [] => last_thr l | e :: _ => Some e end.
Proof. destruct w as [|e w]; [done|]. intros [H _]%Forall_cons. by destruct e. Qed.
Lemma last_thr_elem l e : last_thr l = Some e -> e ∈ l.
Proof. induction l as [|x l IH]; [done|]. simpl. destruct x; intros X; first [injection X as <-; by left|right; by apply IH]. Qed.
Lemma last_thr_thr l e : last_thr l = Some e -> thr e.
Proof. induction l as [|x l IH]; [done|]. simpl. destruct x; intros X; first [by injection X as <-|by apply IH]. Qed.
Lemma last_thr_none l e : last_thr l = None -> thr e -> e ∉ l.
Proof. induction l as [|x l IH]; [intros _ _ H; by apply elem_of_nil in H|]. simpl. intros N T [->|H]%elem_of_cons; [by destruct x|]. destruct x; try done; by apply IH in H. Qed.

(** ** C140: a thread's start or end that comes while it is waited for wakes the coroutine. Refuted *)
(** Exactly: a suspended coroutine can go on if the signal was emitted since the connection was made, or if it has a timeout. *)
Theorem C140_woken s k t w v2 v1 v0 : hreach s -> waiting k t w v2 v1 v0 (h_tr s) ->
  (HSignal k ∈ w <-> ∃ s', hperform HADeliver s = Some s' ∧ h_tr s' = HReturn true :: h_tr s) ∧
  (t = true <-> ∃ s', hperform HATimeout s = Some s' ∧ h_tr s' = HReturn false :: HTimeout :: h_tr s) ∧
  hperform HAStep s = None ∧ ∀ k t, hperform (HACall k t) s = None.
Proof.
  intros R W. destruct (waiting_pos _ _ _ _ _ _ _ R W) as (p & P & X). destruct s as [q p' tr]. simpl in P. subst p'. rewrite <- X. unfold hperform. simpl. split_and!; try done.
  - split; [intros ->; by eexists|]. intros (s' & E & _). by destruct p.
  - split; [intros ->; by eexists|]. intros (s' & E & _). by destruct t.
Qed.
(** So it is lost only if it was emitted between the first check (for waitForFinished(), the second) and the connection. *)
Theorem C140_lost s k t w v2 v1 v0 : hreach s -> waiting k t w v2 v1 v0 (h_tr s) -> last_thr (h_tr s) = Some (HSignal k) ->
  HSignal k ∈ w ∨ HSignal k ∈ v2 ∨ (k = KStarted ∧ HSignal KStarted ∈ v1).
Proof.
  intros R (u & T & Fw & F2 & F1 & F0) L. pose proof (reach_ok _ R) as O. rewrite T in *. clear T.
  rewrite last_thr_app in L by done. destruct w as [|e w]; [|injection L as ->; by left; left]. simpl in L.
  rewrite last_thr_app in L by done. destruct v2 as [|e v2]; [|injection L as ->; by right; left; left]. right. right.
  destruct k; simpl in *.
  - rewrite last_thr_app in L by done. destruct v1 as [|e v1]; [|injection L as ->; by split; [|left]]. exfalso. simpl in L.
    pose proof (O [HConnected; HFinished false] (HRunning false) _ eq_refl) as [_ X]. discriminate X. by right.
  - pose proof (O [HConnected] (HRunning true) _ eq_refl) as [X _]. destruct (X eq_refl); congruence.
Qed.

(** From here [k] is not emitted before the thread is started again. *)
Definition silent (k : kind) (q : qstate) : Prop := match k with KStarted => q ≠ QStarting | KFinished => q = QNew ∨ q = QDone end.
Definition stuck (t : bool) (l0 l : list hev) : Prop :=
  (∃ w, l = w ++ l0 ∧ Forall thr w) ∨ (t = true ∧ ∃ w w', l = w ++ HReturn false :: HTimeout :: w' ++ l0 ∧ Forall thr w').
Lemma ext a s s' : hperform a s = Some s' -> ∃ w, h_tr s' = w ++ h_tr s.
Proof. unfold hperform. destruct a; intros E; repeat (case_match; try discriminate); simplify_eq; simpl; first [by eexists [_]|by eexists [_;_]]. Qed.
Lemma ext_play l s : ∃ w, h_tr (hplay l s) = w ++ h_tr s.
Proof.
  revert s. induction l as [|a l IH]; intros s; simpl; [by exists []|]. destruct (hperform a s) eqn:E; [|by exists []].
  destruct (IH h) as [w' ->]. destruct (ext _ _ _ E) as [w2 ->]. exists (w' ++ w2). by rewrite <- app_assoc.
Qed.
Lemma stuck_play l : ∀ q k t tr, silent k q -> HAStart ∉ l -> stuck t tr (h_tr (hplay l (Hst q (HWait k t false) tr))).
Proof.
  induction l as [|a l IH]; intros q k t tr Q N; [left; by exists []|]. apply not_elem_of_cons in N as [Na N]. simpl.
  assert (∀ q' e, silent k q' -> thr e -> stuck t tr (h_tr (hplay l (Hst q' (HWait k t false) (e :: tr))))) as Go.
  { intros q' e Q' T. destruct (IH q' k t (e :: tr) Q' N) as [(w & -> & F)|(-> & w & w' & -> & F)].
    - left. exists (w ++ [e]). rewrite <- app_assoc. split; [done|]. apply Forall_app. by split; [|constructor].
    - right. split; [done|]. exists w, (w' ++ [e]). rewrite <- app_assoc. split; [done|]. apply Forall_app. by split; [|constructor]. }
  assert (stuck t tr tr) as Stay by (left; by exists []).
  unfold hperform. simpl. destruct a; try done; simpl.
  - destruct t; [|done]. simpl. destruct (ext_play l (Hst q HElse (HReturn false :: HTimeout :: tr))) as [w ->]. right. split; [done|]. exists w, []. by split.
  - destruct q; try done; destruct k; simpl in *; try (by destruct Q); apply Go; simpl; auto; by right.
Qed.
Lemma pos_else s : hreach s -> elsewhere (h_tr s) -> h_pos s = HElse.
Proof.
  intros R (w & F & W). destruct (reach_inv _ R) as [_ P]. destruct (h_pos s) as [|k t|k t|k t|k t p]; [done|..]; exfalso.
  1: destruct P as (v0 & u & T & F0).
  2: destruct P as (v1 & v0 & u & T & F1 & F0).
  3: destruct P as (v2 & v1 & v0 & u & T & F2 & F1 & F0).
  4: destruct P as (w' & v2 & v1 & v0 & (u & T & F3 & F2 & F1 & F0) & _).
  all: rewrite T in W; destruct W as [<-|(b & u' & W)]; [eapply not_thr_app; [exact F|nothr]|split_e W].
Qed.
Lemma hplay_reach l : ∀ s, hreach s -> hreach (hplay l s).
Proof. induction l as [|a l IH]; [done|]. intros s R. simpl. destruct (hperform a s) eqn:E; [|done]. apply IH. by eapply hreach_S. Qed.

(** waitForFinished() of a running thread, whenever it is called: if the thread ends between isRunning() and the connection, the call does not return before the thread is
    started again, or it returns false at the timeout. *)
Theorem C140_refuted s t : hreach s -> elsewhere (h_tr s) -> last_thr (h_tr s) = Some (HSignal KStarted) ->
  ∃ s', hreach s' ∧ h_tr s' = HConnected :: HSignal KFinished :: HFinishing :: HRunning true :: HFinished false :: HCall KFinished t :: h_tr s ∧
    ∀ l, HAStart ∉ l -> stuck t (h_tr s') (h_tr (hplay l s')).
Proof.
  intros R W L. pose proof (pos_else _ R W) as P. destruct (reach_inv _ R) as [Q _]. unfold q_of in Q. rewrite L in Q.
  eexists. split; [exact (hplay_reach [HACall KFinished t; HAStep; HAStep; HAThread; HAThread; HAStep] _ R)|].
  destruct s as [q p tr]. simpl in *. subst. split; [done|]. intros l N. unfold hperform. simpl. apply stuck_play; [by right|done].
Qed.
(** The same for waitForStarted() and a thread that is not running; [l] may contain anything else, in particular the end of the thread. *)
Theorem C140_started_refuted s t : hreach s -> elsewhere (h_tr s) -> last_thr (h_tr s) = None ∨ last_thr (h_tr s) = Some (HSignal KFinished) ->
  ∃ s', hreach s' ∧ h_tr s' = HConnected :: HSignal KStarted :: HFinished false :: HStart :: HRunning false :: HCall KStarted t :: h_tr s ∧
    ∀ l, HAStart ∉ l -> stuck t (h_tr s') (h_tr (hplay l s')).
Proof.
  intros R W L. pose proof (pos_else _ R W) as P. destruct (reach_inv _ R) as [Q _]. unfold q_of in Q.
  eexists. split; [exact (hplay_reach [HACall KStarted t; HAStep; HAStart; HAStep; HAThread; HAStep] _ R)|].
  destruct s as [q p tr]. simpl in *. destruct L as [L|L]; rewrite L in Q; subst; (split; [done|]; intros l N; unfold hperform; simpl; apply stuck_play; [done|done]).
Qed.

(** ** C141: what waitForStarted() and waitForFinished() return, and why *)
(** isRunning() and isFinished() tell the state of the thread at that time. *)
Theorem C141_answers s l2 l1 b : hreach s ->
  (h_tr s = l2 ++ HRunning b :: l1 -> (b = true <-> runs l1)) ∧ (h_tr s = l2 ++ HFinished b :: l1 -> (b = true <-> ended l1)).
Proof. intros R. split; intros T; exact (reach_ok _ R _ _ _ T). Qed.
Theorem C141_result s l2 b l1 : hreach s -> h_tr s = l2 ++ HReturn b :: l1 -> ∃ k, reason k b l1.
Proof. intros R T. exact (reach_ok _ R _ _ _ T). Qed.
(** In particular, a call never returns true for a thread that has not done what it waits for. *)
Theorem C141_true s l2 l1 : hreach s -> h_tr s = l2 ++ HReturn true :: l1 ->
  ∃ k, match k with KStarted => HStart ∈ l1 | KFinished => HFinishing ∈ l1 end ∧ ∃ t w u, l1 = w ++ HCall k t :: u ∧ ∀ k' t', HCall k' t' ∉ w.
Proof.
  intros R T. destruct (reach_ok _ R _ _ _ T) as (k & [(_ & t & v0 & u & -> & F)|[[[=] _]|[(_ & t & w & v2 & v1 & v0 & (u & -> & F3 & F2 & F1 & F0) & X)|[[=] _]]]]).
  - exists k. split.
    + destruct k; simpl in *.
      * pose proof (reach_ok _ R (l2 ++ [HReturn true]) (HRunning true) (v0 ++ HCall KStarted t :: u)) as [Y _]; [by rewrite T, <- app_assoc|].
        destruct (Y eq_refl) as [Z|Z]; [right; by apply last_thr_elem|]. apply last_thr_elem in Z as (a & c & E)%elem_of_list_split.
        assert (last_thr c = Some HStart) as D%last_thr_elem. { apply (reach_ok _ R (l2 ++ HReturn true :: HRunning true :: a) (HSignal KStarted)). by rewrite T, E, <- app_assoc. }
        rewrite E. right. rewrite elem_of_app. right. by right.
      * pose proof (reach_ok _ R (l2 ++ [HReturn true]) (HFinished true) (v0 ++ HCall KFinished t :: u)) as [Y _]; [by rewrite T, <- app_assoc|].
        destruct (Y eq_refl) as [Z|Z]; [right; by apply last_thr_elem|]. apply last_thr_elem in Z as (a & c & E)%elem_of_list_split.
        assert (last_thr c = Some HFinishing) as D%last_thr_elem. { apply (reach_ok _ R (l2 ++ HReturn true :: HFinished true :: a) (HSignal KFinished)). by rewrite T, E, <- app_assoc. }
        rewrite E. right. rewrite elem_of_app. right. by right.
    + exists t, (answer1 k :: v0), u. split; [done|]. intros k' t' [E|H]%elem_of_cons; [by destruct k|]. rewrite Forall_forall in F. by apply F in H.
  - exists k. split.
    + apply elem_of_list_split in X as (a & c & E).
      assert (match k with KStarted => HStart | KFinished => HFinishing end ∈ c ++ HConnected :: v2 ++ passed2 k :: v1 ++ passed1 k :: v0 ++ HCall k t :: u) as H.
      { apply last_thr_elem. pose proof (reach_ok _ R (l2 ++ HReturn true :: a) (HSignal k) (c ++ HConnected :: v2 ++ passed2 k :: v1 ++ passed1 k :: v0 ++ HCall k t :: u)) as Y.
        destruct k; apply Y; rewrite T, E; by rewrite <- !app_assoc. }
      rewrite E, <- app_assoc. destruct k; apply elem_of_app; right; right; exact H.
    + exists t, (w ++ HConnected :: v2 ++ passed2 k :: v1 ++ passed1 k :: v0), u. split; [by rewrite <- !app_assoc; simpl; rewrite <- !app_assoc; simpl; rewrite <- !app_assoc|].
      intros k' t' H. rewrite !elem_of_app, !elem_of_cons, !elem_of_app, !elem_of_cons, !elem_of_app, !elem_of_cons in H. rewrite !Forall_forall in *.
      destruct H as [H|[H|[H|[H|[H|[H|H]]]]]]; try (by destruct k); naive_solver.
Qed.

(** ** C142: without a timeout, waitForFinished() returns false only if the thread was not started when it was called. Refuted *)
Theorem C142_refuted s : hreach s -> elsewhere (h_tr s) -> last_thr (h_tr s) = Some (HSignal KStarted) ->
  ∃ s', hreach s' ∧ h_tr s' = HReturn false :: HRunning false :: HFinishing :: HFinished false :: HCall KFinished false :: h_tr s.
Proof.
  intros R W L. pose proof (pos_else _ R W) as P. destruct (reach_inv _ R) as [Q _]. unfold q_of in Q. rewrite L in Q.
  eexists. split; [exact (hplay_reach [HACall KFinished false; HAStep; HAThread; HAStep] _ R)|].
  destruct s as [q p tr]. simpl in *. by subst.
Qed.
(** Otherwise only if the thread has never been started. *)
Theorem C142_only_then s l2 v1 v0 u : hreach s ->
  h_tr s = l2 ++ HReturn false :: HRunning false :: v1 ++ HFinished false :: v0 ++ HCall KFinished false :: u -> Forall thr v1 ->
  HFinishing ∈ v1 ∨ HStart ∉ v1 ++ v0 ++ u.
Proof.
  intros R T F. pose proof (reach_ok _ R) as O. rewrite T in O.
  pose proof (O (l2 ++ [HReturn false]) (HRunning false) (v1 ++ HFinished false :: v0 ++ HCall KFinished false :: u)) as A. specialize (A ltac:(by rewrite <- app_assoc)). simpl in A.
  pose proof (O (l2 ++ HReturn false :: HRunning false :: v1) (HFinished false) (v0 ++ HCall KFinished false :: u)) as B. specialize (B ltac:(by rewrite <- app_assoc)). simpl in B.
  assert (¬ ended (v0 ++ HCall KFinished false :: u)) as NE. { intros X. by apply B in X. }
  assert (¬ runs (v1 ++ HFinished false :: v0 ++ HCall KFinished false :: u)) as NR. { intros X. by apply A in X. }
  clear A B. unfold runs, ended in *. rewrite last_thr_app in NR by done. destruct v1 as [|e v1]; simpl in NR.
  - right. simpl. intros H. destruct (last_thr (v0 ++ HCall KFinished false :: u)) as [e|] eqn:L.
    + pose proof (last_thr_thr _ _ L) as Te. destruct e as [| | | | | | |[]|]; try done; first [by destruct NR; auto|by destruct NE; auto].
    + apply (last_thr_none _ HStart L); [done|]. rewrite elem_of_app in *. destruct H; [by left|right; by right].
  - left. apply Forall_cons in F as [Te F]. destruct e as [| | | | | | |[]|]; try done; try (by destruct NR; auto); [|by left].
    right. pose proof (O (l2 ++ [HReturn false; HRunning false]) (HSignal KFinished) (v1 ++ HFinished false :: v0 ++ HCall KFinished false :: u)) as C. specialize (C ltac:(by rewrite <- app_assoc)). simpl in C.
    rewrite last_thr_app in C by done. destruct v1 as [|e v1]; [|injection C as ->; by left]. simpl in C. by destruct NE; left.
Qed.

(** ** Non-vacuity *)
Definition ex_run := hplay [HAStart; HAThread] threadwait0.
Lemma ex_hyps : hreach ex_run ∧ elsewhere (h_tr ex_run) ∧ last_thr (h_tr ex_run) = Some (HSignal KStarted).
Proof. split; [refine (hplay_reach _ _ hreach_0)|]. split; [|done]. exists (h_tr ex_run). split; [|by left]. by repeat constructor. Qed.
(** waitForFinished() that waits and returns true; waitForStarted() with a timeout that returns false. *)
Example ex_finished : h_tr (hplay [HACall KFinished false; HAStep; HAStep; HAStep; HAThread; HAThread; HADeliver] ex_run) =
  HReturn true :: HSignal KFinished :: HFinishing :: HConnected :: HRunning true :: HFinished false :: HCall KFinished false :: h_tr ex_run.
Proof. reflexivity. Qed.
Example ex_timeout : h_tr (hplay [HACall KStarted true; HAStep; HAStep; HAStep; HATimeout] threadwait0) =
  [HReturn false; HTimeout; HConnected; HFinished false; HRunning false; HCall KStarted true].
Proof. reflexivity. Qed.
Example ex_waiting : waiting KFinished false [HFinishing] [] [] [] (h_tr (hplay [HACall KFinished false; HAStep; HAStep; HAStep; HAThread] ex_run)).
Proof. exists (h_tr ex_run). split_and!; [reflexivity|by repeat constructor..]. Qed.

Print Assumptions C140_woken. Print Assumptions C140_lost. Print Assumptions C140_refuted. Print Assumptions C140_started_refuted.
Print Assumptions C141_result. Print Assumptions C141_true. Print Assumptions C142_refuted. Print Assumptions C142_only_then.
