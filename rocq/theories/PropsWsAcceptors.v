(** * C148-C151: any number of coroutines accept connections from one QWebSocketServer *)
From stdpp Require Import prelude.
From Verif Require Import WsAcceptorsModel.

(** ** Vocabulary, about the trace of events (newest first) *)
(** The connections that have come, and those that were taken (by anyone) or dropped, in order. *)
Fixpoint came (tr : list wev) : list nat := match tr with [] => [] | WArrive c :: l => came l ++ [c] | _ :: l => came l end.
Fixpoint gone (tr : list wev) : list nat :=
  match tr with [] => [] | WTook _ (Some c) :: l | WTaken c :: l => gone l ++ [c] | WClose cs :: l => gone l ++ cs | _ :: l => gone l end.
Definition pending (tr : list wev) : list nat := drop (length (gone tr)) (came tr).
Fixpoint listening (tr : list wev) : bool := match tr with [] => false | WListen :: _ => true | WClose _ :: _ => false | _ :: l => listening l end.
Fixpoint ticks (l : list wev) : nat := match l with [] => 0 | WTick :: l => S (ticks l) | _ :: l => ticks l end.
(** Who is suspended, in the order in which they were. *)
Fixpoint sleepers (tr : list wev) : list nat :=
  match tr with
  | [] => []
  | WSuspended i :: l => sleepers l ++ [i]
  | (WGot i _ _ | WDestroyed i) :: l => filter (λ j, j ≠ i) (sleepers l)
  | _ :: l => sleepers l
  end.
(** A call that was suspended has ended. *)
Fixpoint one_ended (tr : list wev) : Prop :=
  match tr with [] => False | (WGot i _ _ | WDestroyed i) :: l => i ∈ sleepers l ∨ one_ended l | _ :: l => one_ended l end.
(** What coroutine i does. *)
Definition about (i : nat) (e : wev) : bool := match e with WCall j _ | WSuspended j | WGot j _ _ | WDestroyed j => bool_decide (j = i) | _ => false end.
Definition silent (i : nat) (w : list wev) : Prop := ∀ e, e ∈ w -> about i e = false.
(** Coroutine [i] is suspended in a call with timeout [to]; [w] happened since. *)
Definition suspended (i : nat) (to : option nat) (w tr : list wev) : Prop := ∃ u, tr = w ++ WSuspended i :: WCall i to :: u ∧ silent i w.
(** The first signal during [w]: what i's listener took then, or nothing if it was closed. *)
Fixpoint outcome (i : nat) (w : list wev) : option (option nat) :=
  match w with
  | [] => None
  | e :: w => match outcome i w with Some r => Some r | None => match e with WClosedSig => Some None | WTook j r => if decide (j = i) then Some r else None | _ => None end end
  end.

(** ** Invariant *)
Definition tick (e : wev) : nat := match e with WTick => 1 | _ => 0 end.
Definition co_inv (s : wst) (i : nat) : Prop :=
  match w_co s i with
  | WElse | WDead => (∀ to w, ¬ suspended i to w (w_tr s)) ∧ i ∉ sleepers (w_tr s)
  | WWait dl => i ∈ sleepers (w_tr s) ∧ ∃ to w, suspended i to w (w_tr s) ∧ outcome i w = None ∧ ∃ t, w_now s = t + ticks w ∧ dl = (λ n, t + n) <$> to
  | WPosted r dl => i ∈ sleepers (w_tr s) ∧ ∃ to w, suspended i to w (w_tr s) ∧ outcome i w = Some r ∧ ∃ t, w_now s = t + ticks w ∧ dl = (λ n, t + n) <$> to
  end.
Record inv (s : wst) : Prop := Inv {
  i_pend : came (w_tr s) = gone (w_tr s) ++ w_pend s;
  i_listen : w_listen s = listening (w_tr s);
  i_order : w_order s = sleepers (w_tr s);
  i_stale : w_stale s = true <-> one_ended (w_tr s);
  i_bad : w_bad s = true <-> WUndefined ∈ w_tr s;
  i_co i : co_inv s i }.

Lemma suspended_inj i to w to' w' tr : suspended i to w tr -> suspended i to' w' tr -> to = to' ∧ w = w'.
Proof.
  intros (u & E & Si) (u' & E' & Si'). rewrite E in E'. clear E tr. revert w' E' Si'. induction w as [|x w IH]; intros w' E' Si'.
  - destruct w' as [|y w']; [by simplify_eq|]. injection E' as <- _. specialize (Si' (WSuspended i) (elem_of_list_here _ _)). simpl in Si'. by rewrite bool_decide_eq_true_2 in Si'.
  - destruct w' as [|y w'].
    + injection E' as -> _. specialize (Si (WSuspended i) (elem_of_list_here _ _)). simpl in Si. by rewrite bool_decide_eq_true_2 in Si.
    + injection E' as <- E'. destruct (IH (λ e He, Si e (elem_of_list_further _ _ _ He)) w' E' (λ e He, Si' e (elem_of_list_further _ _ _ He))) as (-> & ->). done.
Qed.
Lemma suspended_cons i to w e tr : about i e = false -> suspended i to w tr -> suspended i to (e :: w) (e :: tr).
Proof. intros A (u & -> & Si). exists u. split; [done|]. intros x [->|H]%elem_of_cons; [done|by apply Si]. Qed.
Lemma suspended_uncons i to w e tr : about i e = false -> suspended i to w (e :: tr) -> ∃ w', w = e :: w' ∧ suspended i to w' tr.
Proof.
  intros A (u & E & Si). destruct w as [|x w].
  - injection E as -> _. simpl in A. by rewrite bool_decide_eq_true_2 in A.
  - injection E as <- ->. exists w. split; [done|]. exists u. split; [done|]. intros x H. apply Si. by right.
Qed.
Lemma not_suspended i e tr to w : about i e = true -> e ≠ WSuspended i -> ¬ suspended i to w (e :: tr).
Proof. intros A N (u & E & Si). destruct w as [|x w]; [by injection E as ->|]. injection E as <- ->. rewrite (Si e) in A; [done|by left]. Qed.
Lemma ticks_cons e w : ticks (e :: w) = tick e + ticks w.
Proof. by destruct e. Qed.
Lemma sleepers_other i e tr : about i e = false -> i ∈ sleepers (e :: tr) <-> i ∈ sleepers tr.
Proof.
  destruct e; simpl; try done; rewrite bool_decide_eq_false; intros N.
  - rewrite elem_of_app, elem_of_list_singleton. naive_solver.
  - rewrite elem_of_list_filter. naive_solver.
  - rewrite elem_of_list_filter. naive_solver.
Qed.
Lemma set_same i c f : set_wco i c f i = c.
Proof. unfold set_wco. by rewrite decide_True. Qed.
Lemma set_other i j c f : j ≠ i -> set_wco i c f j = f j.
Proof. intros. unfold set_wco. by rewrite decide_False. Qed.

(** Steps of one event each. *)
Inductive mic (s : wst) : wev -> wst -> Prop :=
  | m_call i to : w_co s i = WElse -> mic s (WCall i to) (wlog (WCall i to) s)
  | m_no i to u : w_co s i = WElse -> w_tr s = WCall i to :: u -> w_listen s = false -> mic s (WGot i None false) (wlog (WGot i None false) s)
  | m_took i to u c : w_co s i = WElse -> w_tr s = WCall i to :: u -> w_listen s = true -> head (w_pend s) = Some c -> mic s (WTook i (head (w_pend s))) (wtake i s)
  | m_got i to u c : w_co s i = WElse -> w_tr s = WTook i (Some c) :: WCall i to :: u -> listening u = true -> mic s (WGot i (Some c) false) (wlog (WGot i (Some c) false) s)
  | m_susp i to u : w_co s i = WElse -> w_tr s = WCall i to :: u -> w_listen s = true -> w_pend s = [] -> mic s (WSuspended i)
      (Wst (w_listen s) (w_pend s) (set_wco i (WWait ((λ n, w_now s + n) <$> to)) (w_co s)) (w_order s ++ [i]) (w_stale s) (w_now s) (w_bad s) (WSuspended i :: w_tr s))
  | m_wake i r dl : w_co s i = WPosted r dl -> mic s (WGot i r false) (wend i WElse (WGot i r false) s)
  | m_expire i d r : w_co s i = WWait (Some d) ∨ w_co s i = WPosted r (Some d) -> d ≤ w_now s -> mic s (WGot i None true) (wend i WElse (WGot i None true) s)
  | m_die i : w_co s i = WElse -> mic s (WDestroyed i) (Wst (w_listen s) (w_pend s) (set_wco i WDead (w_co s)) (w_order s) (w_stale s) (w_now s) (w_bad s) (WDestroyed i :: w_tr s))
  | m_kill i : i ∈ w_order s -> mic s (WDestroyed i) (wend i WDead (WDestroyed i) s)
  | m_serve i : i ∈ w_order s -> mic s (WTook i (head (w_pend s))) (serve1 i s)
  | m_arrive c : mic s (WArrive c) (Wst (w_listen s) (w_pend s ++ [c]) (w_co s) (w_order s) (w_stale s) (w_now s) (w_bad s) (WArrive c :: w_tr s))
  | m_signal : mic s WSignal (wlog WSignal s)
  | m_bad : w_stale s = true -> mic s WUndefined (Wst (w_listen s) (w_pend s) (w_co s) (w_order s) (w_stale s) (w_now s) true (WUndefined :: w_tr s))
  | m_closedsig : mic s WClosedSig (Wst (w_listen s) (w_pend s) (λ i, post None (w_co s i)) (w_order s) (w_stale s) (w_now s) (w_bad s) (WClosedSig :: w_tr s))
  | m_listen : mic s WListen (Wst true (w_pend s) (w_co s) (w_order s) (w_stale s) (w_now s) (w_bad s) (WListen :: w_tr s))
  | m_close : mic s (WClose (w_pend s)) (Wst false [] (w_co s) (w_order s) (w_stale s) (w_now s) (w_bad s) (WClose (w_pend s) :: w_tr s))
  | m_taken c l : w_pend s = c :: l -> mic s (WTaken c) (Wst (w_listen s) l (w_co s) (w_order s) (w_stale s) (w_now s) (w_bad s) (WTaken c :: w_tr s))
  | m_tick : mic s WTick (Wst (w_listen s) (w_pend s) (w_co s) (w_order s) (w_stale s) (S (w_now s)) (w_bad s) (WTick :: w_tr s)).
Inductive mics (s : wst) : wst -> Prop := ms_0 : mics s s | ms_S s1 e s2 : mics s s1 -> mic s1 e s2 -> mics s s2.
Lemma mic_tr s e s' : mic s e s' -> w_tr s' = e :: w_tr s.
Proof. by destruct 1. Qed.
Lemma mics_trans s s1 s2 : mics s s1 -> mics s1 s2 -> mics s s2.
Proof. intros A. induction 1 as [|s2 e s3 _ IH M]; [done|]. by eapply ms_S. Qed.
Lemma mics_1 s e s' : mic s e s' -> mics s s'.
Proof. intros. eapply ms_S; [apply ms_0|done]. Qed.
Lemma sleeper s i : inv s -> i ∈ w_order s <-> match w_co s i with WElse | WDead => False | _ => True end.
Proof. intros I. rewrite (i_order _ I). pose proof (i_co _ I i) as C. unfold co_inv in C. destruct (w_co s i); naive_solver. Qed.
Lemma serve_mics l s : (∀ i, i ∈ l -> i ∈ w_order s) -> mics s (serve l s).
Proof.
  revert s. induction l as [|i l IH]; intros s H; [apply ms_0|]. simpl. eapply mics_trans; [eapply mics_1, m_serve, H; by left|]. apply IH. intros j Hj. apply H. by right.
Qed.
Lemma perform_mics s a s' : inv s -> wperform a s = Some s' -> mics s s'.
Proof.
  intros I E. unfold wperform in E. destruct (w_bad s) eqn:B; [done|]. destruct a as [i to|i|i|i|c| | | | | |].
  - destruct (w_co s i) eqn:C; simplify_eq. destruct (w_listen s) eqn:L; simpl.
    + destruct (w_pend s) as [|c p] eqn:P.
      * eapply ms_S; [by eapply (mics_1 _ (WCall i to)), m_call|]. pose proof (m_susp (wlog (WCall i to) s) i to (w_tr s) C eq_refl L P) as M. simpl in M. rewrite B, L, P in M. exact M.
      * eapply ms_S; [eapply ms_S; [by eapply (mics_1 _ (WCall i to)), m_call|]|].
        -- apply (m_took (wlog (WCall i to) s) i to (w_tr s) c C eq_refl L). simpl. by rewrite P.
        -- refine (m_got _ i to (w_tr s) c _ _ _); [done| |]; simpl; [by rewrite P|]. by rewrite <- (i_listen _ I).
    + eapply ms_S; [by eapply (mics_1 _ (WCall i to)), m_call|]. by eapply m_no.
  - destruct (w_co s i) eqn:C; simplify_eq. by eapply mics_1, m_wake.
  - destruct (w_co s i) as [|[d|]|r [d|]|] eqn:C; try discriminate; case_decide; simplify_eq.
    + eapply mics_1, (m_expire _ i d None); [by left|done].
    + eapply mics_1, (m_expire _ i d r); [by right|done].
  - pose proof (proj2 (sleeper s i I)) as S1. destruct (w_co s i) eqn:C; simplify_eq.
    + apply (mics_1 _ (WDestroyed i)). rewrite <- B. by apply m_die.
    + eapply mics_1, m_kill. by apply S1.
    + eapply mics_1, m_kill. by apply S1.
  - simplify_eq. apply (mics_1 _ (WArrive c)). rewrite <- B. apply m_arrive.
  - simplify_eq. destruct (w_stale s) eqn:St.
    + eapply ms_S; [eapply (mics_1 _ WSignal), m_signal|]. pose proof (m_bad (wlog WSignal s) St) as M. simpl in M. rewrite St in M. exact M.
    + eapply mics_trans; [eapply (mics_1 _ WSignal), m_signal|]. by apply serve_mics.
  - simplify_eq. apply (mics_1 _ WClosedSig). rewrite <- B. apply m_closedsig.
  - destruct (w_listen s) eqn:L; simplify_eq. apply (mics_1 _ WListen). rewrite <- B. apply m_listen.
  - simplify_eq. pose proof (m_close s) as M. rewrite B in M. by eapply mics_1.
  - destruct (w_pend s) eqn:P; simplify_eq. apply (mics_1 _ (WTaken n)). rewrite <- B. by apply m_taken.
  - simplify_eq. apply (mics_1 _ WTick). rewrite <- B. apply m_tick.
Qed.

(** An event that is not one of coroutine [i], nor a signal to it. *)
Lemma co_other (s : wst) s' i e : about i e = false -> (∀ w, outcome i w = None -> outcome i (e :: w) = None) -> w_tr s' = e :: w_tr s -> w_co s' i = w_co s i ->
  w_now s' = tick e + w_now s -> co_inv s i -> co_inv s' i.
Proof.
  intros A O T C Nw I. unfold co_inv in *. rewrite C, T, Nw. pose proof (sleepers_other i e (w_tr s) A) as SO. destruct (w_co s i) as [|dl|r dl|].
  1,4: rewrite SO; destruct I as [I ?]; split; [|done]; intros to w Su; apply suspended_uncons in Su as (w' & _ & Su); [|done]; by eapply I.
  all: destruct I as (Sl & to & w & Su & W & t & E & D); split; [by apply SO|]; exists to, (e :: w); (split; [by apply suspended_cons|]).
  - split; [by apply O|]. exists t. split; [rewrite ticks_cons; lia|done].
  - split; [simpl; by rewrite W|]. exists t. split; [rewrite ticks_cons; lia|done].
Qed.
(** A signal to it. *)
Lemma co_post (s s' : wst) i e r : about i e = false -> tick e = 0 -> (∀ w, outcome i w = None -> outcome i (e :: w) = Some r) -> w_tr s' = e :: w_tr s ->
  w_co s' i = post r (w_co s i) -> w_now s' = w_now s -> co_inv s i -> co_inv s' i.
Proof.
  intros A Tk O T C Nw I. unfold co_inv in *. rewrite C, T, Nw. pose proof (sleepers_other i e (w_tr s) A) as SO. unfold post. destruct (w_co s i) as [|dl|r' dl|].
  1,4: rewrite SO; destruct I as [I ?]; split; [|done]; intros to w Su; apply suspended_uncons in Su as (w' & _ & Su); [|done]; by eapply I.
  all: destruct I as (Sl & to & w & Su & W & t & E & D); split; [by apply SO|]; exists to, (e :: w); (split; [by apply suspended_cons|]).
  - split; [by apply O|]. exists t. split; [rewrite ticks_cons; lia|done].
  - split; [simpl; by rewrite W|]. exists t. split; [rewrite ticks_cons; lia|done].
Qed.
(** An event that ends a call, or makes one. *)
Lemma co_none (s' : wst) i e tr : about i e = true -> e ≠ WSuspended i -> w_co s' i = WElse ∨ w_co s' i = WDead -> w_tr s' = e :: tr -> i ∉ sleepers (e :: tr) -> co_inv s' i.
Proof.
  intros A N C T Sl. unfold co_inv. rewrite T. assert (∀ to w, ¬ suspended i to w (e :: tr)) as X by (intros; by apply not_suspended). destruct C as [-> | ->]; done.
Qed.
Lemma not_about i j e : about i e = true -> j ≠ i -> about j e = false ∧ tick e = 0 ∧ ∀ w, outcome j w = None -> outcome j (e :: w) = None.
Proof. destruct e; simpl; try done; rewrite bool_decide_eq_true, bool_decide_eq_false; intros -> ?; (split; [congruence|]); (split; [done|]); by intros w ->. Qed.
Lemma co_step (s s' : wst) i e c : about i e = true -> w_tr s' = e :: w_tr s -> w_co s' = set_wco i c (w_co s) -> w_now s' = w_now s ->
  (∀ k, co_inv s k) -> co_inv s' i -> ∀ j, co_inv s' j.
Proof.
  intros A T C Nw I Ii j. destruct (decide (j = i)) as [->|N]; [done|]. destruct (not_about i j e A N) as (A' & Tk & O).
  eapply (co_other s _ _ e); try done; [by rewrite C, set_other|by rewrite Tk].
Qed.
Lemma one_ended_end i e tr : (∃ r b, e = WGot i r b) ∨ e = WDestroyed i -> one_ended (e :: tr) <-> i ∈ sleepers tr ∨ one_ended tr.
Proof. by intros [(r & b & ->)| ->]. Qed.
Lemma sleepers_end i e tr : (∃ r b, e = WGot i r b) ∨ e = WDestroyed i -> sleepers (e :: tr) = filter (λ j, j ≠ i) (sleepers tr).
Proof. by intros [(r & b & ->)| ->]. Qed.
Lemma filter_none (i : nat) (l : list nat) : i ∉ l -> filter (λ j, j ≠ i) l = l.
Proof. induction l as [|j l IH]; [done|]. rewrite not_elem_of_cons. intros [N1 N2]. rewrite filter_cons_True by congruence. by rewrite IH. Qed.
Lemma wend_inv s i c e : inv s -> c = WElse ∨ c = WDead -> (∃ r b, e = WGot i r b) ∨ e = WDestroyed i -> i ∈ w_order s -> inv (wend i c e s).
Proof.
  intros [I1 I2 I3 I4 I5 I6] Cc Ee Sl. rewrite I3 in Sl. constructor; cbn [w_listen w_pend w_co w_order w_stale w_now w_bad w_tr wend].
  - by destruct Ee as [(r & b & ->)| ->].
  - by destruct Ee as [(r & b & ->)| ->].
  - by rewrite I3, (sleepers_end _ _ _ Ee).
  - rewrite (one_ended_end _ _ _ Ee). split; [intros _; by left|done].
  - rewrite I5, elem_of_cons. destruct Ee as [(r & b & ->)| ->]; naive_solver.
  - assert (about i e = true) as A by (destruct Ee as [(r & b & ->)| ->]; simpl; by rewrite bool_decide_eq_true_2).
    eapply (co_step s _ i e c); try done. eapply (co_none _ i e (w_tr s)); try done; [by destruct Ee as [(r & b & ->)| ->]|simpl; by rewrite set_same|].
    rewrite (sleepers_end _ _ _ Ee), elem_of_list_filter. naive_solver.
Qed.
Lemma else_end s i e c : inv s -> w_co s i = WElse -> c = WElse ∨ c = WDead -> (∃ r b, e = WGot i r b) ∨ e = WDestroyed i ->
  inv (Wst (w_listen s) (w_pend s) (set_wco i c (w_co s)) (w_order s) (w_stale s) (w_now s) (w_bad s) (e :: w_tr s)).
Proof.
  intros [I1 I2 I3 I4 I5 I6] C Cc Ee. assert (i ∉ sleepers (w_tr s)) as N by (pose proof (I6 i) as X; unfold co_inv in X; rewrite C in X; naive_solver). constructor; cbn [w_listen w_pend w_co w_order w_stale w_now w_bad w_tr wend].
  - by destruct Ee as [(r & b & ->)| ->].
  - by destruct Ee as [(r & b & ->)| ->].
  - by rewrite I3, (sleepers_end _ _ _ Ee), filter_none.
  - rewrite (one_ended_end _ _ _ Ee). naive_solver.
  - rewrite I5, elem_of_cons. destruct Ee as [(r & b & ->)| ->]; naive_solver.
  - assert (about i e = true) as A by (destruct Ee as [(r & b & ->)| ->]; simpl; by rewrite bool_decide_eq_true_2).
    eapply (co_step s _ i e c); try done. eapply (co_none _ i e (w_tr s)); try done; [by destruct Ee as [(r & b & ->)| ->]|simpl; by rewrite set_same|].
    by rewrite (sleepers_end _ _ _ Ee), filter_none.
Qed.
Lemma set_id i c f s : f i = c -> inv (Wst (w_listen s) (w_pend s) (set_wco i c f) (w_order s) (w_stale s) (w_now s) (w_bad s) (w_tr s)) ->
  inv (Wst (w_listen s) (w_pend s) f (w_order s) (w_stale s) (w_now s) (w_bad s) (w_tr s)).
Proof.
  intros E [I1 I2 I3 I4 I5 I6]. constructor; try done. intros j. specialize (I6 j). unfold co_inv in *. simpl in *.
  assert (set_wco i c f j = f j) as X by (unfold set_wco; case_decide; by subst). by rewrite X in I6.
Qed.
Lemma mic_inv s e s' : inv s -> mic s e s' -> inv s'.
Proof.
  intros I M. pose proof I as [I1 I2 I3 I4 I5 I6].
  destruct M as [i to C|i to u C T L|i to u c C T L H|i to u c C T L|i to u C T L P|i r dl C|i d r C D|i C|i O|i O|c| |St| | | |c l P|].
  - assert (i ∉ sleepers (w_tr s)) as N by (pose proof (I6 i) as X; unfold co_inv in X; rewrite C in X; naive_solver).
    constructor; simpl; try done; [rewrite I5, elem_of_cons; naive_solver|]. intros j. destruct (decide (j = i)) as [->|Nj].
    + eapply (co_none _ i (WCall i to) (w_tr s)); try done; [simpl; by rewrite bool_decide_eq_true_2|by left].
    + eapply (co_other s _ _ (WCall i to)); try done; [simpl; by rewrite bool_decide_eq_false_2|by simpl; intros w ->].
  - apply (set_id i WElse (w_co s) (wlog (WGot i None false) s)); [done|]. apply (else_end s i (WGot i None false) WElse); try done; [by left|left; by eexists _, _].
  - constructor; simpl; try done.
    + rewrite I1, H. destruct (w_pend s); simplify_eq/=. by rewrite <- app_assoc.
    + rewrite I5, elem_of_cons. naive_solver.
    + intros j. destruct (decide (j = i)) as [->|Nj].
      * pose proof (I6 i) as X. unfold co_inv in *. simpl. rewrite C in *. destruct X as [X1 X2]. split; [|done]. intros to' w Su. apply suspended_uncons in Su as (w' & _ & Su); [|done]. by eapply X1.
      * eapply (co_other s _ _ (WTook i _)); try done. simpl. intros w ->. by rewrite decide_False by congruence.
  - apply (set_id i WElse (w_co s) (wlog (WGot i (Some c) false) s)); [done|]. apply (else_end s i (WGot i (Some c) false) WElse); try done; [by left|left; by eexists _, _].
  - constructor; simpl; try done; [by rewrite I3|rewrite I5, elem_of_cons; naive_solver|].
    eapply (co_step s _ i (WSuspended i)); try done; [simpl; by rewrite bool_decide_eq_true_2|]. unfold co_inv. simpl. rewrite set_same. split; [apply elem_of_app; right; by left|].
    exists to, []. split; [exists u; split; [by rewrite T|by intros e ?%not_elem_of_nil]|]. split; [done|]. exists (w_now s). simpl. split; [lia|done].
  - apply wend_inv; try done; [by left|left; by eexists _, _|]. apply (sleeper _ _ I). by rewrite C.
  - apply wend_inv; try done; [by left|left; by eexists _, _|]. apply (sleeper _ _ I). by destruct C as [-> | ->].
  - apply (else_end s i (WDestroyed i) WDead); try done; by right.
  - apply wend_inv; try done; by right.
  - constructor; simpl; try done.
    + rewrite I1. destruct (w_pend s); simpl; [done|]. by rewrite <- app_assoc.
    + rewrite I5, elem_of_cons. naive_solver.
    + intros j. destruct (decide (j = i)) as [->|Nj].
      * eapply (co_post s _ i (WTook i _) _); try done; [|simpl; by rewrite set_same]. simpl. intros w ->. by rewrite decide_True.
      * eapply (co_other s _ _ (WTook i _)); try done; [|simpl; by rewrite set_other]. simpl. intros w ->. by rewrite decide_False by congruence.
  - constructor; simpl; try done; [by rewrite I1, app_assoc|rewrite I5, elem_of_cons; naive_solver|]. intros j. eapply (co_other s _ _ (WArrive c)); try done. by simpl; intros w ->.
  - constructor; simpl; try done; [rewrite I5, elem_of_cons; naive_solver|]. intros j. eapply (co_other s _ _ WSignal); try done. by simpl; intros w ->.
  - constructor; simpl; try done; [rewrite elem_of_cons; naive_solver|]. intros j. eapply (co_other s _ _ WUndefined); try done. by simpl; intros w ->.
  - constructor; simpl; try done; [rewrite I5, elem_of_cons; naive_solver|]. intros j. eapply (co_post s _ j WClosedSig None); try done. by simpl; intros w ->.
  - constructor; simpl; try done; [rewrite I5, elem_of_cons; naive_solver|]. intros j. eapply (co_other s _ _ WListen); try done. by simpl; intros w ->.
  - constructor; simpl; try done; [by rewrite app_nil_r|rewrite I5, elem_of_cons; naive_solver|]. intros j. eapply (co_other s _ _ (WClose _)); try done. by simpl; intros w ->.
  - constructor; simpl; try done; [by rewrite I1, P, <- app_assoc|rewrite I5, elem_of_cons; naive_solver|]. intros j. eapply (co_other s _ _ (WTaken c)); try done. by simpl; intros w ->.
  - constructor; simpl; try done; [rewrite I5, elem_of_cons; naive_solver|]. intros j. eapply (co_other s _ _ WTick); try done. by simpl; intros w ->.
Qed.
Lemma inv_0 : inv wsacceptors0.
Proof.
  constructor; simpl; try done; [split; [done|by intros ?%not_elem_of_nil]|]. intros i. split; [|by apply not_elem_of_nil]. intros to w (u & E & _). by destruct w.
Qed.
Lemma mics_inv s s' : inv s -> mics s s' -> inv s'.
Proof. intros I. induction 1 as [|s1 e s2 _ IH M]; [done|by eapply mic_inv]. Qed.
Lemma reach_mics s : wreach s -> mics wsacceptors0 s ∧ inv s.
Proof.
  induction 1 as [|s s' a R [M I] E]; [split; [apply ms_0|apply inv_0]|]. pose proof (perform_mics _ _ _ I E) as M'. split; [by eapply mics_trans|by eapply mics_inv].
Qed.
Lemma reach_inv s : wreach s -> inv s.
Proof. intros R. by apply reach_mics. Qed.
Lemma pending_pend s : inv s -> pending (w_tr s) = w_pend s.
Proof. intros I. unfold pending. by rewrite (i_pend _ I), drop_app. Qed.
(** Every event of the trace of a reachable state was a step. *)
Lemma at_event s l2 e l1 : wreach s -> w_tr s = l2 ++ e :: l1 -> ∃ s1 s2, inv s1 ∧ mic s1 e s2 ∧ w_tr s1 = l1.
Proof.
  intros R. destruct (reach_mics _ R) as [M _]. clear R. revert l2. induction M as [|s1 e' s2 M IH M1]; intros l2 T; [by destruct l2|].
  rewrite (mic_tr _ _ _ M1) in T. destruct l2 as [|x l2].
  - injection T as <- <-. exists s1, s2. split; [|done]. eapply mics_inv; [apply inv_0|done].
  - injection T as _ T. by eapply IH.
Qed.
Lemma at_point s l2 l1 : wreach s -> w_tr s = l2 ++ l1 -> ∃ s1, inv s1 ∧ w_tr s1 = l1.
Proof.
  intros R T. destruct l2 as [|e l2] using rev_ind; [exists s; split; [by apply reach_inv|done]|]. clear IHl2. rewrite <- app_assoc in T. simpl in T.
  destruct (at_event _ _ _ _ R T) as (s1 & s2 & I & _ & T1). by exists s1.
Qed.

(** ** C148: each connection is taken once, in order, and what a call returns *)
(** What a call may return: nullptr after its timeout; what its listener took at the first signal since the call was suspended; or at once, the oldest pending connection,
    or nullptr if the server does not listen. *)
Definition good_result (i : nat) (r : option nat) (late : bool) (l1 : list wev) : Prop :=
  (late = true ∧ r = None ∧ ∃ n w, suspended i (Some n) w l1 ∧ n ≤ ticks w) ∨
  (late = false ∧ ∃ to w, suspended i to w l1 ∧ outcome i w = Some r) ∨
  (late = false ∧ ∃ to u, if listening u then l1 = WTook i r :: WCall i to :: u ∧ r ≠ None else l1 = WCall i to :: u ∧ r = None).

Theorem C148_connections s : wreach s ->
  gone (w_tr s) `prefix_of` came (w_tr s) ∧
  (∀ l2 i r l1, w_tr s = l2 ++ WTook i r :: l1 -> r = head (pending l1)) ∧
  (∀ l2 i r late l1, w_tr s = l2 ++ WGot i r late :: l1 -> good_result i r late l1) ∧
  (∀ l2 i l1, w_tr s = l2 ++ WSuspended i :: l1 -> listening l1 = true ∧ pending l1 = []).
Proof.
  intros R. split_and!.
  - exists (w_pend s). by apply i_pend, reach_inv.
  - intros l2 i r l1 T. destruct (at_event _ _ _ _ R T) as (s1 & s2 & I & M & <-). rewrite (pending_pend _ I). by inversion M.
  - intros l2 i r late l1 T. destruct (at_event _ _ _ _ R T) as (s1 & s2 & I & M & <-). pose proof (i_co _ I i) as X. unfold co_inv in X. inversion M; subst.
    + right. right. split; [done|]. exists to, u. pose proof (i_listen _ I) as L. match goal with H : w_tr s1 = _ |- _ => rewrite H in L end. simpl in L. rewrite <- L.
      match goal with H : w_listen s1 = false |- _ => rewrite H end. done.
    + right. right. split; [done|]. exists to, u. match goal with H : listening u = true |- _ => rewrite H end. done.
    + match goal with H : w_co s1 i = _ |- _ => rewrite H in X end. destruct X as (_ & to & w & Su & O & _). right. left. split; [done|]. by exists to, w.
    + left. split_and!; [done..|]. match goal with H : _ ∨ _ |- _ => destruct H as [H|H]; rewrite H in X end; destruct X as (_ & to & w & Su & O & t & Nw & E);
        (destruct to as [n|]; [|done]); injection E as ->; exists n, w; (split; [done|lia]).
  - intros l2 i l1 T. destruct (at_event _ _ _ _ R T) as (s1 & s2 & I & M & <-). rewrite (pending_pend _ I), <- (i_listen _ I). by inversion M.
Qed.
Print Assumptions C148_connections.

(** ** C149: an emission of newConnection is undefined exactly if a suspended call has ended; else all listeners take, in the order of suspension *)
Fixpoint took (l p : list nat) : list wev := match l with [] => [] | i :: l => WTook i (head p) :: took l (tail p) end.
Lemma serve_tr l s : w_tr (serve l s) = rev (took l (w_pend s)) ++ w_tr s ∧ w_bad (serve l s) = w_bad s.
Proof.
  revert s. induction l as [|i l IH]; intros s; [done|]. simpl. destruct (IH (serve1 i s)) as [-> ->]. simpl. by rewrite <- app_assoc.
Qed.
Theorem C149_emission s : wreach s -> WUndefined ∉ w_tr s ->
  ∃ s', wperform WASignal s = Some s' ∧
    (one_ended (w_tr s) -> w_tr s' = WUndefined :: WSignal :: w_tr s) ∧
    (¬ one_ended (w_tr s) -> w_tr s' = rev (took (sleepers (w_tr s)) (pending (w_tr s))) ++ WSignal :: w_tr s).
Proof.
  intros R N. pose proof (reach_inv _ R) as I. rewrite (pending_pend _ I). unfold wperform. destruct (w_bad s) eqn:B; [by apply (i_bad _ I) in B|].
  eexists. split; [done|]. rewrite <- (i_stale _ I). destruct (w_stale s) eqn:E; (split; [try done|try done]); intros _.
  destruct (serve_tr (w_order s) (wlog WSignal s)) as [X _]. rewrite <- (i_order _ I). exact X.
Qed.
Print Assumptions C149_emission.
(** Nothing else is undefined. *)
Theorem C149_only s l2 l1 : wreach s -> w_tr s = l2 ++ WUndefined :: l1 -> l2 = [] ∧ ∃ l, l1 = WSignal :: l ∧ one_ended l.
Proof.
  intros R. revert l2. induction R as [|s s' a R IH E]; intros l2 T; [by destruct l2|]. pose proof (reach_inv _ R) as I. pose proof (reach_inv _ (wreach_S _ _ _ R E)) as I'.
  assert (w_bad s' = true) as B' by (apply (i_bad _ I'); rewrite T; apply elem_of_app; right; by left).
  unfold wperform in E. destruct (w_bad s) eqn:B; [done|].
  assert (WUndefined ∉ w_tr s) as N by (intros H; apply (i_bad _ I) in H; congruence).
  destruct a as [i to|i|i|i|c| | | | | |].
  6: { simplify_eq. destruct (w_stale s) eqn:St; [|destruct (serve_tr (w_order s) (wlog WSignal s)) as [_ X]; rewrite X in B'; simpl in B'; congruence].
    simpl in T. destruct l2 as [|x l2].
    - injection T as <-. split; [done|]. exists (w_tr s). split; [done|]. by apply (i_stale _ I).
    - injection T as _ T. destruct l2 as [|y l2]; [done|]. injection T as _ T. exfalso. apply N. rewrite T. apply elem_of_app. right. by left. }
  all: repeat (case_match; try discriminate); simplify_eq; simpl in B'; congruence.
Qed.
Print Assumptions C149_only.

(** ** C150: one connection ends one call, and the server can be used again. Refuted: it ends the calls of all who wait, and the next connection is undefined *)
Lemma serve_posted l s k r d : w_co s k = WPosted r d -> w_co (serve l s) k = WPosted r d.
Proof.
  revert s. induction l as [|i l IH]; intros s H; [done|]. simpl. apply IH. simpl. unfold set_wco. case_decide; [|done]. subst. by rewrite H.
Qed.
Lemma serve_pend l s : w_pend s = [] -> w_pend (serve l s) = [].
Proof. revert s. induction l as [|i l IH]; intros s H; [done|]. simpl. apply IH. simpl. by rewrite H. Qed.
Lemma took_nil l e : e ∈ rev (took l []) -> ∃ k, e = WTook k None.
Proof.
  intros H%elem_of_list_In%in_rev%elem_of_list_In. revert H. induction l as [|i l IH]; simpl; [by intros ?%not_elem_of_nil|].
  rewrite elem_of_cons. intros [->|H]; [by exists i|by apply IH].
Qed.
Lemma took_took l p e : e ∈ took l p -> ∃ k r, e = WTook k r.
Proof.
  revert p. induction l as [|i l IH]; intros p; simpl; [by intros ?%not_elem_of_nil|]. rewrite elem_of_cons. intros [->|H]; [by eexists _, _|by eapply IH].
Qed.
Theorem C150_refuted s i j l c : wreach s -> WUndefined ∉ w_tr s -> ¬ one_ended (w_tr s) -> pending (w_tr s) = [] -> sleepers (w_tr s) = i :: j :: l -> i ≠ j ->
  (∀ k to w, k = i ∨ k = j -> suspended k to w (w_tr s) -> outcome k w = None) ->
  ∃ s' s'' l3, wreach s' ∧ wreach s'' ∧ w_tr s' = WGot j None false :: WGot i (Some c) false :: l3 ++ WTook j None :: WTook i (Some c) :: WSignal :: WArrive c :: w_tr s ∧
    (∀ e, e ∈ l3 -> ∃ k, e = WTook k None) ∧ w_tr s'' = WUndefined :: WSignal :: w_tr s'.
Proof.
  intros R N St P Sl Nij Out. pose proof (reach_inv _ R) as I. rewrite (pending_pend _ I) in P.
  assert (w_bad s = false) as B by (destruct (w_bad s) eqn:B; [by apply (i_bad _ I) in B|done]).
  assert (w_stale s = false) as Es by (destruct (w_stale s) eqn:B'; [by apply (i_stale _ I) in B'|done]).
  assert (∀ k, k = i ∨ k = j -> ∃ d, w_co s k = WWait d) as Wt.
  { intros k K. pose proof (i_co _ I k) as X. unfold co_inv in X. assert (k ∈ sleepers (w_tr s)) as Kl by (rewrite Sl; destruct K as [-> | ->]; [left|right; left]).
    destruct (w_co s k) as [|d|r d|]; [naive_solver|by exists d| |naive_solver]. destruct X as (_ & to & w & Su & O & _). by rewrite (Out k to w K Su) in O. }
  destruct (Wt i ltac:(by left)) as [di Ci], (Wt j ltac:(by right)) as [dj Cj].
  set (s1 := Wst (w_listen s) (w_pend s ++ [c]) (w_co s) (w_order s) (w_stale s) (w_now s) false (WArrive c :: w_tr s)).
  assert (wreach s1) as R1. { eapply (wreach_S s _ (WAArrive c)); [done|]. unfold wperform. by rewrite B. }
  set (s2 := serve (w_order s) (wlog WSignal s1)).
  assert (wreach s2) as R2. { eapply (wreach_S s1 _ WASignal); [done|]. unfold wperform. simpl. by rewrite Es. }
  assert (w_tr s2 = rev (took (w_order s) [c]) ++ WSignal :: WArrive c :: w_tr s ∧ w_bad s2 = false) as [T2 B2].
  { unfold s2. destruct (serve_tr (w_order s) (wlog WSignal s1)) as [-> ->]. simpl. by rewrite P. }
  assert (w_order s = i :: j :: l) as O by (by rewrite (i_order _ I)).
  assert (w_co s2 i = WPosted (Some c) di ∧ w_co s2 j = WPosted None dj) as [C2i C2j].
  { unfold s2. rewrite O. simpl. split; apply serve_posted; simpl; rewrite P; simpl; unfold set_wco.
    - rewrite decide_False by done. rewrite decide_True by done. by rewrite Ci.
    - rewrite decide_True by done. rewrite decide_False by done. by rewrite Cj. }
  set (s3 := wend i WElse (WGot i (Some c) false) s2).
  assert (wreach s3) as R3. { eapply (wreach_S s2 _ (WAWake i)); [done|]. unfold wperform. by rewrite B2, C2i. }
  set (s4 := wend j WElse (WGot j None false) s3).
  assert (wreach s4) as R4. { eapply (wreach_S s3 _ (WAWake j)); [done|]. unfold wperform. simpl. rewrite B2, set_other by done. by rewrite C2j. }
  eexists s4, _, (rev (took l [])). split_and!; [done| | |by apply took_nil|].
  - eapply (wreach_S s4 _ WASignal); [done|]. unfold wperform. simpl. rewrite B2. reflexivity.
  - simpl. rewrite T2, O. simpl. by rewrite <- !app_assoc.
  - done.
Qed.
Print Assumptions C150_refuted.

(** ** C151: which calls return *)
(** A suspended call returns, with what its listener took first, as soon as the event is delivered, which is possible once there was a signal; or at its timeout, even if
    there was one. *)
Theorem C151_returns s i to w : wreach s -> WUndefined ∉ w_tr s -> suspended i to w (w_tr s) ->
  (∀ r, outcome i w = Some r -> ∃ s', wperform (WAWake i) s = Some s' ∧ w_tr s' = WGot i r false :: w_tr s) ∧
  (outcome i w = None -> wperform (WAWake i) s = None) ∧
  ((∃ n, to = Some n ∧ n ≤ ticks w) <-> ∃ s', wperform (WAExpire i) s = Some s') ∧
  (∀ s', wperform (WAExpire i) s = Some s' -> w_tr s' = WGot i None true :: w_tr s).
Proof.
  intros R N Su. pose proof (reach_inv _ R) as I. assert (w_bad s = false) as B by (destruct (w_bad s) eqn:B; [by apply (i_bad _ I) in B|done]).
  pose proof (i_co _ I i) as X. unfold co_inv in X. unfold wperform. rewrite B. destruct (w_co s i) as [|dl|r dl|]; [by apply X in Su| | |by apply X in Su];
    destruct X as (_ & to' & w' & Su' & O & t & Nw & D); destruct (suspended_inj _ _ _ _ _ _ Su Su') as (<- & <-); rewrite D; (split_and!; [| | |]).
  1,2,5,6: rewrite O; intros; simplify_eq; try done; by eexists.
  1,3: split; [intros (n & -> & L); simpl; rewrite decide_True by lia; by eexists|intros [s' E]; destruct to as [n|]; [|done]; simpl in E; case_decide; [|done]; exists n; split; [done|lia]].
  all: intros s' E; destruct to as [n|]; [|done]; simpl in E; case_decide; [|done]; by simplify_eq.
Qed.
Print Assumptions C151_returns.
(** Who is suspended has a listener, and each signal reaches all listeners: after newConnection or closed, if that is defined, everyone who is suspended can return. *)
Theorem C151_all_woken s s' a i to w : wreach s -> a = WASignal ∨ a = WAClosedSig -> wperform a s = Some s' -> WUndefined ∉ w_tr s' -> suspended i to w (w_tr s) ->
  ∃ w', suspended i to (w' ++ w) (w_tr s') ∧ ∃ r, outcome i (w' ++ w) = Some r.
Proof.
  intros R Ea E N' Su. pose proof (reach_inv _ R) as I. pose proof (reach_inv _ (wreach_S _ _ _ R E)) as I'.
  assert (∀ l, (∀ e, e ∈ l -> about i e = false) -> suspended i to (l ++ w) (l ++ w_tr s)) as Ap.
  { intros l H. induction l as [|e l IH]; [done|]. simpl. apply suspended_cons; [apply H; by left|]. apply IH. intros x Hx. apply H. by right. }
  unfold wperform in E. destruct (w_bad s) eqn:B; [done|]. destruct Ea as [-> | ->].
  - destruct (w_stale s) eqn:St; simplify_eq; [exfalso; apply N'; by left|].
    assert (i ∈ sleepers (w_tr s)) as Sl. { pose proof (i_co _ I i) as X. unfold co_inv in X. destruct (w_co s i); naive_solver. }
    rewrite <- (i_order _ I) in Sl. destruct (serve_tr (w_order s) (wlog WSignal s)) as [T _]. rewrite T. simpl.
    exists (rev (took (w_order s) (w_pend s)) ++ [WSignal]). rewrite <- app_assoc. split.
    + pose proof (Ap (rev (took (w_order s) (w_pend s)) ++ [WSignal])) as A. rewrite <- !app_assoc in A. apply A.
      intros e. rewrite elem_of_app, elem_of_list_singleton. intros [H| ->]; [|done]. apply elem_of_list_In, in_rev, elem_of_list_In in H.
      by destruct (took_took _ _ _ H) as (k & r & ->).
    + assert (∀ l u, outcome i u ≠ None -> outcome i (l ++ u) ≠ None) as Mono.
      { intros l u H. induction l as [|e l IH]; [done|]. simpl. by destruct (outcome i (l ++ u)). }
      assert (∀ l p u, i ∈ l -> outcome i (rev (took l p) ++ u) ≠ None) as G.
      { intros l. induction l as [|k l IH]; intros p u; [by intros ?%not_elem_of_nil|]. rewrite elem_of_cons. intros [->|H]; simpl; rewrite <- app_assoc; [|by apply IH].
        apply Mono. simpl. destruct (outcome k u); [done|]. by rewrite decide_True. }
      specialize (G (w_order s) (w_pend s) ([WSignal] ++ w) Sl). destruct (outcome i _) as [r|]; [by exists r|done].
  - simplify_eq. exists [WClosedSig]. split; [apply suspended_cons; done|]. simpl. destruct (outcome i w) as [r|]; [by exists r|by exists None].
Qed.
Print Assumptions C151_all_woken.


(** The result is fixed by the first signal: whatever the listener takes later is not returned by this call. *)
Theorem C151_fixed s i to w r l2 r' late l1 : wreach s -> w_tr s = l2 ++ WGot i r' late :: l1 -> suspended i to w l1 -> outcome i w = Some r ->
  if late then r' = None else r' = r.
Proof.
  intros R T Su O. destruct (C148_connections _ R) as (_ & _ & G & _). destruct (G _ _ _ _ _ T) as [(-> & -> & _)|[(-> & to' & w' & Su' & O')|(-> & to' & u & H)]]; [done| |].
  - destruct (suspended_inj _ _ _ _ _ _ Su Su') as [_ <-]. congruence.
  - exfalso. destruct (listening u); destruct H as [-> _].
    + apply suspended_uncons in Su as (w' & _ & Su); [|done]. revert Su. apply not_suspended; [|done]. simpl. by rewrite bool_decide_eq_true_2.
    + revert Su. apply not_suspended; [|done]. simpl. by rewrite bool_decide_eq_true_2.
Qed.
Print Assumptions C151_fixed.
(** The case is not empty: the second connection is taken by the same listener, and nobody returns it. *)
Example ex151_fixed : let s := wplays [WAListen; WACall 1 None; WAArrive 7; WASignal; WAArrive 8; WASignal; WAWake 1] wsacceptors0 in
  wreach s ∧ w_tr s = [WGot 1 (Some 7) false; WTook 1 (Some 8); WSignal; WArrive 8; WTook 1 (Some 7); WSignal; WArrive 7; WSuspended 1; WCall 1 None; WListen] ∧
  outcome 1 [WTook 1 (Some 8); WSignal; WArrive 8; WTook 1 (Some 7); WSignal; WArrive 7] = Some (Some 7).
Proof. cbv zeta. split_and!; [|done|done]. generalize [WAListen; WACall 1 None; WAArrive 7; WASignal; WAArrive 8; WASignal; WAWake 1]. intros l. assert (∀ l s, wreach s -> wreach (wplays l s)) as X; [|apply X, wreach_0].
  clear l. intros l. induction l as [|a l IH]; intros s R; [done|]. simpl. destruct (wperform a s) as [s'|] eqn:E; [|done]. apply IH. by eapply wreach_S. Qed.

(** ** Examples *)
Local Ltac not_in := match goal with |- _ ∉ ?t => let t' := eval vm_compute in t in change (WUndefined ∉ t') end; rewrite !not_elem_of_cons; repeat (split; [done|]); apply not_elem_of_nil.
(** Three coroutines wait; two connections come, in one emission; the third returns nullptr. *)
Example ex148 : w_tr (wplays [WAListen; WACall 1 None; WACall 2 None; WACall 3 (Some 9); WAArrive 70; WAArrive 71; WASignal; WAWake 2; WAWake 1; WATick; WAWake 3; WAArrive 72; WACall 1 None] wsacceptors0) =
  [WGot 1 (Some 72) false; WTook 1 (Some 72); WCall 1 None; WArrive 72; WGot 3 None false; WTick; WGot 1 (Some 70) false; WGot 2 (Some 71) false;
   WTook 3 None; WTook 2 (Some 71); WTook 1 (Some 70); WSignal; WArrive 71; WArrive 70; WSuspended 3; WCall 3 (Some 9); WSuspended 2; WCall 2 None; WSuspended 1; WCall 1 None; WListen].
Proof. reflexivity. Qed.
Lemma wplays_reach l s : wreach s -> wreach (wplays l s).
Proof. revert s. induction l as [|a l IH]; intros s R; [done|]. simpl. destruct (wperform a s) as [s'|] eqn:E; [|done]. apply IH. by eapply wreach_S. Qed.
(** The hypotheses of C149 to C151 are met: C149 in both cases. *)
Example ex149 : let s := wplays [WAListen; WACall 1 None; WACall 2 (Some 1); WATick; WAExpire 2] wsacceptors0 in
  wreach s ∧ WUndefined ∉ w_tr s ∧ one_ended (w_tr s) ∧ w_tr (wplays [WASignal] s) = WUndefined :: WSignal :: w_tr s.
Proof.
  cbv zeta. split_and!; [apply wplays_reach, wreach_0|not_in|simpl; left; right; left|reflexivity].
Qed.
Example ex150 : let s := wplays [WAListen; WACall 1 None; WACall 2 None] wsacceptors0 in
  wreach s ∧ WUndefined ∉ w_tr s ∧ ¬ one_ended (w_tr s) ∧ pending (w_tr s) = [] ∧ sleepers (w_tr s) = [1; 2] ∧ suspended 1 None [WSuspended 2; WCall 2 None] (w_tr s) ∧ suspended 2 None [] (w_tr s).
Proof.
  cbv zeta. split_and!; [apply wplays_reach, wreach_0|not_in|by intros []|done|done| |].
  - eexists. split; [reflexivity|]. intros e H. rewrite !elem_of_cons, elem_of_nil in H. naive_solver.
  - eexists. split; [reflexivity|]. by intros e ?%not_elem_of_nil.
Qed.
Example ex151 : let s := wplays [WAListen; WACall 1 None; WACall 2 (Some 1)] wsacceptors0 in let s' := wplays [WAClosedSig] s in
  wperform WAClosedSig s = Some s' ∧ outcome 1 [WClosedSig; WSuspended 2; WCall 2 (Some 1)] = Some None ∧ outcome 2 [] = None.
Proof. done. Qed.
