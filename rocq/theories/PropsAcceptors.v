(** * C144-C147: any number of coroutines accept connections from one QTcpServer *)
From stdpp Require Import prelude.
From Verif Require Import AcceptorsModel.

(** ** Vocabulary, about the trace of events (newest first) *)
(** The connections that have come, and those that were taken (by anyone) or dropped, in order. *)
Fixpoint came (tr : list aev) : list nat := match tr with [] => [] | AArrive c :: l => came l ++ [c] | _ :: l => came l end.
Fixpoint gone (tr : list aev) : list nat :=
  match tr with [] => [] | AGot _ (Some c) _ :: l | ATaken c :: l => gone l ++ [c] | AClosed cs :: l => gone l ++ cs | _ :: l => gone l end.
Definition pending (tr : list aev) : list nat := drop (length (gone tr)) (came tr).
Fixpoint listening (tr : list aev) : bool := match tr with [] => false | AListen :: _ => true | AClosed _ :: _ => false | _ :: l => listening l end.
Fixpoint ticks (l : list aev) : nat := match l with [] => 0 | ATick :: l => S (ticks l) | _ :: l => ticks l end.
(** Events of coroutine [i]. *)
Definition about (i : nat) (e : aev) : bool := match e with ACall j _ | ASuspended j | AGot j _ _ | ADestroyed j => bool_decide (j = i) | _ => false end.
Definition silent (i : nat) (w : list aev) : Prop := ∀ e, e ∈ w -> about i e = false.
(** Coroutine [i] is suspended in a call with timeout [to]; [w] happened since. *)
Definition suspended (i : nat) (to : option nat) (w tr : list aev) : Prop := ∃ u, tr = w ++ ASuspended i :: ACall i to :: u ∧ silent i w.
(** The call now returns, and [w] happened since it was made. *)
Definition called (i : nat) (to : option nat) (w tr : list aev) : Prop := (∃ u, tr = ACall i to :: u ∧ w = []) ∨ suspended i to w tr.
(** newConnection was emitted. *)
Definition woken (w : list aev) : Prop := ASignal ∈ w.

(** ** Invariant *)
Definition tick (e : aev) : nat := match e with ATick => 1 | _ => 0 end.
Definition co_inv (s : ast) (i : nat) : Prop :=
  match a_co s i with
  | AElse => ∀ to w, ¬ suspended i to w (a_tr s)
  | AWait dl => ∃ to w, suspended i to w (a_tr s) ∧ ¬ woken w ∧ ∃ t, a_now s = t + ticks w ∧ dl = (λ n, t + n) <$> to
  | APosted dl => ∃ to w, suspended i to w (a_tr s) ∧ woken w ∧ ∃ t, a_now s = t + ticks w ∧ dl = (λ n, t + n) <$> to
  | ADead => ∀ to w, ¬ suspended i to w (a_tr s)
  end.
Record inv (s : ast) : Prop := Inv {
  i_pend : came (a_tr s) = gone (a_tr s) ++ a_pend s;
  i_listen : a_listen s = listening (a_tr s);
  i_co i : co_inv s i }.

Lemma suspended_inj i to w to' w' tr : suspended i to w tr -> suspended i to' w' tr -> to = to' ∧ w = w'.
Proof.
  intros (u & E & Si) (u' & E' & Si'). rewrite E in E'. clear E tr. revert w' E' Si'. induction w as [|x w IH]; intros w' E' Si'.
  - destruct w' as [|y w']; [by simplify_eq|]. injection E' as <- _. specialize (Si' (ASuspended i) (elem_of_list_here _ _)). simpl in Si'. by rewrite bool_decide_eq_true_2 in Si'.
  - destruct w' as [|y w'].
    + injection E' as -> _. specialize (Si (ASuspended i) (elem_of_list_here _ _)). simpl in Si. by rewrite bool_decide_eq_true_2 in Si.
    + injection E' as <- E'. destruct (IH (λ e He, Si e (elem_of_list_further _ _ _ He)) w' E' (λ e He, Si' e (elem_of_list_further _ _ _ He))) as (-> & ->). done.
Qed.
Lemma suspended_cons i to w e tr : about i e = false -> suspended i to w tr -> suspended i to (e :: w) (e :: tr).
Proof. intros A (u & -> & Si). exists u. split; [done|]. intros x [->|H]%elem_of_cons; [done|by apply Si]. Qed.
Lemma suspended_uncons i to w e tr : about i e = false -> suspended i to w (e :: tr) -> ∃ w', w = e :: w' ∧ suspended i to w' tr.
Proof.
  intros A (u & E & Si). destruct w as [|x w].
  - injection E as -> _. simpl in A. by rewrite bool_decide_eq_true_2 in A.
  - injection E as <- ->. exists w. split; [done|]. exists u. split; [done|]. intros x H. apply Si. by right.
Qed.
Lemma not_suspended i e tr to w : about i e = true -> e ≠ ASuspended i -> ¬ suspended i to w (e :: tr).
Proof. intros A N (u & E & Si). destruct w as [|x w]; [by injection E as ->|]. injection E as <- ->. rewrite (Si e) in A; [done|by left]. Qed.
Lemma ticks_cons e w : ticks (e :: w) = tick e + ticks w.
Proof. by destruct e. Qed.
Lemma woken_cons e w : woken (e :: w) <-> e = ASignal ∨ woken w.
Proof. unfold woken. rewrite !elem_of_cons. naive_solver. Qed.

(** An event that does not concern [i], nor all coroutines. *)
Lemma co_other (s : ast) s' i e : about i e = false -> e ≠ ASignal -> a_tr s' = e :: a_tr s -> a_co s' i = a_co s i ->
  a_now s' = tick e + a_now s -> co_inv s i -> co_inv s' i.
Proof.
  intros A N1 T C Nw I. unfold co_inv in *. rewrite C, T, Nw. destruct (a_co s i) as [|dl|dl|].
  1,4: intros to w Su; apply suspended_uncons in Su as (w' & _ & Su); [|done]; by eapply I.
  all: destruct I as (to & w & Su & W & t & E & D); exists to, (e :: w); (split; [by apply suspended_cons|]); (split; [rewrite woken_cons; naive_solver|]);
    exists t; (split; [rewrite ticks_cons; lia|done]).
Qed.
Lemma co_wake (s s' : ast) i : a_tr s' = ASignal :: a_tr s -> a_co s' = signal_all (a_co s) -> a_now s' = a_now s -> co_inv s i -> co_inv s' i.
Proof.
  intros T C Nw I. assert (∀ w, woken (ASignal :: w)) as W by (intros; rewrite woken_cons; naive_solver).
  unfold co_inv in *. rewrite C, T, Nw. unfold signal_all. destruct (a_co s i) as [|dl|dl|].
  1,4: intros to w Su; apply suspended_uncons in Su as (w' & _ & Su); [|done]; by eapply I.
  all: destruct I as (to & w & Su & _ & t & E & D); exists to, (ASignal :: w); (split; [by apply suspended_cons|]); (split; [done|]); exists t; done.
Qed.

Lemma set_same i c f : set_aco i c f i = c.
Proof. unfold set_aco. by rewrite decide_True. Qed.
Lemma set_other i j c f : j ≠ i -> set_aco i c f j = f j.
Proof. intros. unfold set_aco. by rewrite decide_False. Qed.
Lemma inv_0 : inv acceptors0.
Proof. constructor; simpl; try done. intros i to w (u & E & _). by destruct w. Qed.
Lemma not_about i j e : about i e = true -> j ≠ i -> about j e = false.
Proof. destruct e; simpl; try done; rewrite bool_decide_eq_true, bool_decide_eq_false; congruence. Qed.
(** One event of coroutine [i]; the others are not concerned. *)
Lemma co_step (s s' : ast) i j e c : about i e = true -> a_tr s' = e :: a_tr s -> a_co s' = set_aco i c (a_co s) -> a_now s' = a_now s ->
  (∀ k, co_inv s k) -> co_inv s' i -> co_inv s' j.
Proof.
  intros A T C Nw I Ii. destruct (decide (j = i)) as [->|N]; [done|].
  assert (tick e = 0 ∧ e ≠ ASignal) as (N1 & N2) by (by destruct e).
  eapply (co_other s _ _ e); try done; [by eapply not_about|by rewrite C, set_other|by rewrite N1].
Qed.
Lemma co_end (s s' : ast) i j e c : about i e = true -> e ≠ ASuspended i -> c = AElse ∨ c = ADead -> a_tr s' = e :: a_tr s -> a_co s' = set_aco i c (a_co s) -> a_now s' = a_now s ->
  (∀ k, co_inv s k) -> co_inv s' j.
Proof.
  intros A N Cc T C Nw I. eapply (co_step s s' i j e c); try done. unfold co_inv. rewrite C, set_same, T.
  destruct Cc; subst c; intros to w; by apply not_suspended.
Qed.
Lemma step_take s i : inv s -> inv (take_conn i s).
Proof.
  intros [I1 I2 I3]. constructor; simpl; [|done|].
  - rewrite I1. destruct (a_pend s); simpl; [done|]. by rewrite <- app_assoc.
  - intros j. eapply (co_end s _ i j (AGot i _ false) AElse); try done; [simpl; by rewrite bool_decide_eq_true_2|by left].
Qed.
Lemma step_no s i late : inv s -> inv (no_conn i late s).
Proof.
  intros [I1 I2 I3]. constructor; simpl; try done.
  intros j. eapply (co_end s _ i j (AGot i _ late) AElse); try done; [simpl; by rewrite bool_decide_eq_true_2|by left].
Qed.
Lemma step_call s i to : inv s -> a_co s i = AElse -> inv (Ast (a_listen s) (a_pend s) (a_co s) (a_now s) (ACall i to :: a_tr s)).
Proof.
  intros [I1 I2 I3] C. constructor; simpl; try done. intros j. destruct (decide (j = i)) as [->|N].
  - unfold co_inv. simpl. rewrite C. intros to' w. apply not_suspended; [|done]. simpl. by rewrite bool_decide_eq_true_2.
  - eapply (co_other s _ _ (ACall i to)); try done. simpl. by rewrite bool_decide_eq_false_2.
Qed.
Lemma step_inv s s' a : inv s -> aperform a s = Some s' -> inv s'.
Proof.
  intros I E. destruct a as [i to|i|i|i|c| | | | |]; simpl in E.
  - destruct (a_co s i) eqn:C; try discriminate. pose proof (step_call s i to I C) as St. destruct (negb (a_listen s)); simplify_eq; [by apply (step_no _ i false St)|].
    destruct (a_pend s) eqn:P; simplify_eq; [|by apply (step_take _ i St)].
    destruct I as [I1 I2 I3]. constructor; simpl; try done; [by rewrite I1, P|].
    intros j. eapply (co_step (Ast (a_listen s) [] (a_co s) (a_now s) (ACall i to :: a_tr s)) _ i j (ASuspended i)); try done; [simpl; by rewrite bool_decide_eq_true_2| |].
    + intros k. apply (i_co _ St k).
    + unfold co_inv. simpl. rewrite set_same. exists to, []. split; [|split; [by intros ?%not_elem_of_nil|exists (a_now s); split; [simpl; lia|done]]].
      exists (a_tr s). split; [done|]. by intros e ?%not_elem_of_nil.
  - destruct (a_co s i) eqn:C; simplify_eq. by apply step_take.
  - destruct (a_co s i) as [|[d|]|[d|]|] eqn:C; try discriminate; case_decide; simplify_eq; by apply step_no.
  - assert (inv (Ast (a_listen s) (a_pend s) (set_aco i ADead (a_co s)) (a_now s) (ADestroyed i :: a_tr s))) as H.
    { destruct I as [I1 I2 I3]. constructor; simpl; try done. intros j. eapply (co_end s _ i j (ADestroyed i) ADead); try done; [simpl; by rewrite bool_decide_eq_true_2|by right]. }
    destruct (a_co s i); by simplify_eq.
  - destruct (a_listen s) eqn:L; simplify_eq. destruct I as [I1 I2 I3]. constructor; simpl; [by rewrite I1, app_assoc|congruence|].
    intros j. by eapply (co_other s _ _ (AArrive c)).
  - destruct (a_listen s) eqn:L; simplify_eq. destruct I as [I1 I2 I3]. constructor; simpl; [done|congruence|]. intros j. by eapply (co_wake s).
  - destruct (a_listen s) eqn:L; simplify_eq. destruct I as [I1 I2 I3]. constructor; simpl; [done|done|]. intros j. by eapply (co_other s _ _ AListen).
  - destruct (a_listen s) eqn:L; simplify_eq. destruct I as [I1 I2 I3]. constructor; simpl; [by rewrite app_nil_r|done|]. intros j. by eapply (co_other s _ _ (AClosed _)).
  - destruct (a_pend s) as [|c l] eqn:P; simplify_eq. destruct I as [I1 I2 I3]. constructor; simpl; [by rewrite I1, P, <- app_assoc|done|].
    intros j. by eapply (co_other s _ _ (ATaken c)).
  - simplify_eq. destruct I as [I1 I2 I3]. constructor; simpl; try done. intros j. by eapply (co_other s _ _ ATick).
Qed.
Lemma reach_inv s : areach s -> inv s.
Proof. induction 1; [apply inv_0|by eapply step_inv]. Qed.
Lemma pending_pend s : inv s -> pending (a_tr s) = a_pend s.
Proof. intros I. unfold pending. by rewrite (i_pend _ I), drop_app. Qed.
Lemma inv_suspended s i to w : inv s -> suspended i to w (a_tr s) ->
  (∃ dl, a_co s i = AWait dl ∧ ¬ woken w ∧ ∃ t, a_now s = t + ticks w ∧ dl = (λ n, t + n) <$> to) ∨
  (∃ dl, a_co s i = APosted dl ∧ woken w ∧ ∃ t, a_now s = t + ticks w ∧ dl = (λ n, t + n) <$> to).
Proof.
  intros I Su. pose proof (i_co _ I i) as C. unfold co_inv in C. destruct (a_co s i) as [|dl|dl|].
  1,4: by apply C in Su.
  - destruct C as (to' & w' & Su' & W & T). destruct (suspended_inj _ _ _ _ _ _ Su Su') as (-> & ->). left. by exists dl.
  - destruct C as (to' & w' & Su' & W & T). destruct (suspended_inj _ _ _ _ _ _ Su Su') as (-> & ->). right. by exists dl.
Qed.

(** ** Every point of a trace *)
(** What holds of the trace of a reachable state holds at each earlier point. *)
Lemma everywhere (P : list aev -> Prop) : (∀ s, areach s -> P (a_tr s)) -> (∀ i to tr, P tr -> P (ACall i to :: tr)) -> ∀ s l2 l1, areach s -> a_tr s = l2 ++ l1 -> P l1.
Proof.
  intros HP HC s l2 l1 R. revert l2. induction R as [|s s' a R IH E]; intros l2 T; [destruct l2; [|done]; simpl in T; subst l1; apply (HP _ areach_0)|].
  assert ((∃ e, a_tr s' = e :: a_tr s) ∨ (∃ e i to, a_tr s' = e :: ACall i to :: a_tr s)) as [(e & X)|(e & i & to & X)].
  { destruct a as [k to|k|k|k|c| | | | |]; simpl in E; repeat (case_match; try discriminate); simplify_eq; simpl; first [left; by eexists|right; by repeat eexists]. }
  - destruct l2 as [|x l2]; [simpl in T; subst l1; apply (HP s'); by eapply areach_S|]. rewrite X in T. injection T as _ T. by eapply IH.
  - destruct l2 as [|x l2]; [simpl in T; subst l1; apply (HP s'); by eapply areach_S|]. rewrite X in T. injection T as _ T.
    destruct l2 as [|y l2]; [simpl in T; subst l1; apply HC; by apply (HP s)|]. injection T as _ T. by eapply IH.
Qed.
Lemma prefixes s l2 l1 : areach s -> a_tr s = l2 ++ l1 -> gone l1 `prefix_of` came l1.
Proof. apply (everywhere (λ l, gone l `prefix_of` came l)); [|done]. intros s0 R. exists (a_pend s0). by apply i_pend, reach_inv. Qed.

(** ** C144: each connection that comes is given to one taker, in order, and each call returns what it should *)
(** What a call may return: nullptr after its timeout; at once, the oldest pending connection, or nullptr if the server does not listen; after newConnection, the
    oldest pending connection if there is one. *)
Definition good_result (i : nat) (r : option nat) (late : bool) (l1 : list aev) : Prop :=
  ∃ to w, called i to w l1 ∧
    if late then r = None ∧ ∃ n, to = Some n ∧ n ≤ ticks w
    else suspended i to w l1 ∧ woken w ∧ r = head (pending l1)
      ∨ w = [] ∧ if listening l1 then ∃ c, r = Some c ∧ head (pending l1) = Some c else r = None.

Lemma step_good s s' a l2 i r late l1 : inv s -> aperform a s = Some s' -> a_tr s' = l2 ++ AGot i r late :: l1 ->
  good_result i r late l1 ∨ ∃ l2', a_tr s = l2' ++ AGot i r late :: l1.
Proof.
  intros I E T.
  assert (∀ e, (∀ i r late, e ≠ AGot i r late) -> ∀ tr l2, e :: tr = l2 ++ AGot i r late :: l1 -> ∃ l2', tr = l2' ++ AGot i r late :: l1) as Skip.
  { intros e N tr [|x l] X; [by injection X as ->; edestruct N|]. injection X as _ ->. by exists l. }
  destruct a as [k to|k|k|k|c| | | | |]; simpl in E.
  - destruct (a_co s k) eqn:C; try discriminate. pose proof (step_call s k to I C) as St. pose proof (i_listen _ I) as Li. pose proof (pending_pend _ St) as Pe. simpl in Pe.
    destruct (a_listen s) eqn:L; simpl in E; [destruct (a_pend s) as [|c p] eqn:P|]; simplify_eq; simpl in T.
    + right. apply Skip in T as [l2' T]; [|done]. by eapply Skip; [|exact T].
    + destruct l2 as [|x l2].
      * injection T as <- <- <- <-. left. exists to, []. split; [left; by eexists|]. right. split; [done|]. simpl. rewrite <- Li. exists c. by rewrite Pe.
      * injection T as _ T. right. by eapply Skip; [|exact T].
    + destruct l2 as [|x l2].
      * injection T as <- <- <- <-. left. exists to, []. split; [left; by eexists|]. right. split; [done|]. simpl. by rewrite <- Li.
      * injection T as _ T. right. by eapply Skip; [|exact T].
  - destruct (a_co s k) as [| |dl|] eqn:C; simplify_eq. simpl in T. pose proof (i_co _ I k) as Ck. unfold co_inv in Ck. rewrite C in Ck. destruct Ck as (to & w & Su & W & _).
    destruct l2 as [|x l2]; [|injection T as _ T; right; by exists l2]. injection T as <- <- <- <-. left. exists to, w. split; [by right|]. left. by rewrite (pending_pend _ I).
  - assert (∀ d, (a_co s k = AWait (Some d) ∨ a_co s k = APosted (Some d)) -> d ≤ a_now s -> AGot k None true :: a_tr s = l2 ++ AGot i r late :: l1 ->
      good_result i r late l1 ∨ ∃ l2', a_tr s = l2' ++ AGot i r late :: l1) as Late.
    { intros d C L T'. destruct l2 as [|x l2]; [|injection T' as _ T'; right; by exists l2]. injection T' as <- <- <- <-. left.
      assert (∃ to w, suspended k to w (a_tr s) ∧ ∃ t, a_now s = t + ticks w ∧ Some d = (λ n, t + n) <$> to) as (to & w & Su & t & Nw & D).
      { pose proof (i_co _ I k) as Ck. unfold co_inv in Ck. destruct C as [C|C]; rewrite C in Ck; destruct Ck as (to & w & Su & _ & X); by exists to, w. }
      exists to, w. split; [by right|]. split; [done|]. destruct to as [n|]; [|done]. injection D as ->. exists n. split; [done|]. lia. }
    destruct (a_co s k) as [|[d|]|[d|]|] eqn:C; try discriminate; case_decide; simplify_eq; eapply Late; eauto.
  - right. destruct (a_co s k); simplify_eq; by eapply Skip; [|exact T].
  - destruct (a_listen s); simplify_eq. right. by eapply Skip; [|exact T].
  - destruct (a_listen s); simplify_eq. right. by eapply Skip; [|exact T].
  - destruct (a_listen s); simplify_eq. right. by eapply Skip; [|exact T].
  - destruct (a_listen s); simplify_eq. right. by eapply Skip; [|exact T].
  - destruct (a_pend s); simplify_eq. right. by eapply Skip; [|exact T].
  - simplify_eq. right. by eapply Skip; [|exact T].
Qed.

Theorem C144_connections s : areach s ->
  gone (a_tr s) `prefix_of` came (a_tr s) ∧
  ∀ l2 i r late l1, a_tr s = l2 ++ AGot i r late :: l1 -> good_result i r late l1.
Proof.
  intros R. split; [by apply (prefixes s [])|].
  induction R as [|s s' a R IH E]; intros l2 i r late l1 T; [by destruct l2|].
  destruct (step_good _ _ _ _ _ _ _ _ (reach_inv _ R) E T) as [|[l2' T']]; [done|by eapply IH].
Qed.
Print Assumptions C144_connections.

(** ** C145: when a call returns nullptr *)
Lemma came_app w u : came (w ++ u) = came u ++ came w.
Proof. induction w as [|e w IH]; simpl; [by rewrite app_nil_r|]. destruct e; rewrite IH; by rewrite ?app_assoc. Qed.
Lemma gone_app w u : gone (w ++ u) = gone u ++ gone w.
Proof. induction w as [|e w IH]; simpl; [by rewrite app_nil_r|]. destruct e as [| |? [] ?| | | | | | |]; rewrite IH; by rewrite ?app_assoc. Qed.
Lemma called_inj i to w to' w' tr : called i to w tr -> called i to' w' tr -> to = to' ∧ w = w'.
Proof.
  intros [(u & E & ->)|S1] [(u' & E' & ->)|S2].
  - by simplify_eq.
  - exfalso. revert S2. rewrite E. apply not_suspended; [|done]. simpl. by rewrite bool_decide_eq_true_2.
  - exfalso. revert S1. rewrite E'. apply not_suspended; [|done]. simpl. by rewrite bool_decide_eq_true_2.
  - by eapply suspended_inj.
Qed.

(** A call is suspended only while the server listens and no connection is pending. *)
Theorem C145_suspended_when_none s l2 i l1 : areach s -> a_tr s = l2 ++ ASuspended i :: l1 -> listening l1 = true ∧ pending l1 = [] ∧ came l1 = gone l1.
Proof.
  intros R. revert l2. induction R as [|s s' a R IH E]; intros l2 T; [by destruct l2|]. pose proof (reach_inv _ R) as I.
  assert (∀ e, (∀ i, e ≠ ASuspended i) -> ∀ tr l2, e :: tr = l2 ++ ASuspended i :: l1 -> ∃ l2', tr = l2' ++ ASuspended i :: l1) as Skip.
  { intros e N tr [|x l] X; [by injection X as ->; edestruct N|]. injection X as _ ->. by exists l. }
  assert ((∃ e, a_tr s' = e :: a_tr s ∧ ∀ i, e ≠ ASuspended i) ∨ (∃ i r to, a_tr s' = AGot i r false :: ACall i to :: a_tr s) ∨
    (∃ i to, a_tr s' = ASuspended i :: ACall i to :: a_tr s ∧ a_listen s = true ∧ a_pend s = [])) as [(e & X & N)|[(k & r & to & X)|(k & to & X & L & P)]].
  { destruct a as [k to|k|k|k|c| | | | |]; simpl in E; repeat (case_match; try discriminate); simplify_eq; simpl;
      first [left; by eexists|right; left; by repeat eexists|right; right; eexists _, _; split_and!; try done; by apply negb_false_iff]. }
  - rewrite X in T. apply Skip in T as [l2' T]; [|done]. by eapply IH.
  - rewrite X in T. apply Skip in T as [l2' T]; [|done]. apply Skip in T as [l2'' T]; [|done]. by eapply IH.
  - rewrite X in T. destruct l2 as [|x l2].
    + injection T as -> <-. simpl. pose proof (pending_pend _ I) as Pe. split_and!; [by rewrite <- (i_listen _ I)|unfold pending in *; simpl; congruence|by rewrite (i_pend _ I), P, app_nil_r].
    + injection T as _ T. apply Skip in T as [l2' T]; [|done]. by eapply IH.
Qed.
Print Assumptions C145_suspended_when_none.

(** A call that returns nullptr: the server did not listen when it was made; or the timeout is over; or newConnection was emitted, and whatever connection had come
    meanwhile was taken by others, or dropped with close(). *)
Theorem C145_nullptr s l2 i late l1 to w : areach s -> a_tr s = l2 ++ AGot i None late :: l1 -> called i to w l1 ->
  (w = [] ∧ listening l1 = false) ∨ (∃ n, to = Some n ∧ n ≤ ticks w) ∨ (suspended i to w l1 ∧ woken w ∧ came w = gone w).
Proof.
  intros R T C. destruct (C144_connections _ R) as [_ G]. destruct (G _ _ _ _ _ T) as (to' & w' & C' & H).
  destruct (called_inj _ _ _ _ _ _ C C') as (<- & <-). destruct late; [right; left; by destruct H|].
  destruct H as [(Su & W & Hd)|[-> H]]; [|left; destruct (listening l1); [by destruct H as (c & ? & _)|done]].
  right. right. split_and!; [done..|]. assert (pending l1 = []) as K by (by destruct (pending l1)).
  assert (came l1 = gone l1) as Q.
  { assert (gone l1 `prefix_of` came l1) as [y Y].
    { eapply (prefixes s (l2 ++ [AGot i None false]) l1 R). by rewrite T, <- app_assoc. }
    unfold pending in K. rewrite Y, drop_app in K. subst y. by rewrite Y, app_nil_r. }
  destruct Su as (u & E & _). subst l1.
  destruct (C145_suspended_when_none s (l2 ++ AGot i None false :: w) i (ACall i to :: u) R) as (_ & _ & Q0); [by rewrite T, <- app_assoc|].
  rewrite came_app, gone_app in Q. simpl in Q, Q0. rewrite Q0 in Q. by apply app_inv_head in Q.
Qed.
Print Assumptions C145_nullptr.

(** ** C146: a call without timeout returns a connection while the server listens. Refuted: another coroutine may take the one that came *)
Theorem C146_refuted s i j ti tj wi wj c : areach s -> listening (a_tr s) = true -> pending (a_tr s) = [] -> i ≠ j ->
  suspended i ti wi (a_tr s) -> suspended j tj wj (a_tr s) ->
  ∃ s', areach s' ∧ a_tr s' = AGot j None false :: AGot i (Some c) false :: ASignal :: AArrive c :: a_tr s.
Proof.
  intros R O P N Si Sj. pose proof (reach_inv _ R) as I. rewrite <- (i_listen _ I) in O. rewrite (pending_pend _ I) in P.
  assert (∃ di dj, signal_all (a_co s) i = APosted di ∧ signal_all (a_co s) j = APosted dj) as (di & dj & Ei & Ej).
  { unfold signal_all. destruct (inv_suspended _ _ _ _ I Si) as [(di & -> & _)|(di & -> & _)], (inv_suspended _ _ _ _ I Sj) as [(dj & -> & _)|(dj & -> & _)]; by exists di, dj. }
  set (s1 := Ast true [c] (a_co s) (a_now s) (AArrive c :: a_tr s)).
  set (s2 := Ast true [c] (signal_all (a_co s)) (a_now s) (ASignal :: AArrive c :: a_tr s)).
  assert (areach s2) as R2.
  { eapply (areach_S s1 _ AASignal); [|done]. eapply (areach_S s _ (AAArrive c)); [done|]. simpl. by rewrite O, P. }
  assert (areach (take_conn i s2)) as R3. { eapply (areach_S s2 _ (AAWake i)); [done|]. simpl. by rewrite Ei. }
  exists (take_conn j (take_conn i s2)). split; [|done].
  eapply (areach_S (take_conn i s2) _ (AAWake j)); [done|]. simpl. by rewrite set_other, Ej.
Qed.
Print Assumptions C146_refuted.

(** ** C147: which calls return *)
(** One that was woken returns as soon as its event is delivered, with the oldest pending connection if there is one; one that was not does not, unless its timeout is over. *)
Theorem C147_returns s i to w : areach s -> suspended i to w (a_tr s) ->
  (woken w -> ∃ s', aperform (AAWake i) s = Some s' ∧ a_tr s' = AGot i (head (pending (a_tr s))) false :: a_tr s) ∧
  (¬ woken w -> aperform (AAWake i) s = None) ∧
  ((∃ n, to = Some n ∧ n ≤ ticks w) <-> ∃ s', aperform (AAExpire i) s = Some s') ∧
  (∀ s', aperform (AAExpire i) s = Some s' -> a_tr s' = AGot i None true :: a_tr s).
Proof.
  intros R Su. pose proof (reach_inv _ R) as I. rewrite (pending_pend _ I).
  destruct (inv_suspended _ _ _ _ I Su) as [(dl & C & W & t & Nw & ->)|(dl & C & W & t & Nw & ->)]; simpl; rewrite C; (split_and!; [intros W'; try done|intros W'; try done| |]).
  1,4: split; [intros (n & -> & L); simpl; rewrite decide_True by lia; by eexists|intros [s' E]; destruct to as [n|]; [|done]; simpl in E; case_decide; [|done]; exists n; split; [done|lia]].
  1,3: intros s' E; destruct to as [n|]; [|done]; simpl in E; case_decide; [|done]; by simplify_eq.
  by eexists.
Qed.
Print Assumptions C147_returns.

(** Once newConnection is emitted, everyone who is suspended has been woken. Nothing else wakes anyone; in particular closing the server does not. *)
Theorem C147_who_is_woken s s' a e i to w : areach s -> aperform a s = Some s' -> a_tr s' = e :: a_tr s -> suspended i to w (a_tr s) -> about i e = false ->
  suspended i to (e :: w) (a_tr s') ∧ (woken (e :: w) <-> e = ASignal ∨ woken w) ∧
  ((∃ s'', aperform (AAWake i) s' = Some s'') <-> e = ASignal ∨ ∃ s'', aperform (AAWake i) s = Some s'').
Proof.
  intros R E T Su A. assert (suspended i to (e :: w) (a_tr s')) as Su' by (rewrite T; by apply suspended_cons). split_and!; [done|apply woken_cons..|].
  assert (∀ s w, areach s -> suspended i to w (a_tr s) -> (∃ s'', aperform (AAWake i) s = Some s'') <-> woken w) as X.
  { intros s0 w0 R0 Su0. destruct (C147_returns _ _ _ _ R0 Su0) as (X1 & X2 & _). split; [|intros W; destruct (X1 W) as (s'' & ? & _); by exists s''].
    intros [s'' Y]. destruct (inv_suspended _ _ _ _ (reach_inv _ R0) Su0) as [(dl & _ & W & _)|(dl & _ & W & _)]; [|done]. by rewrite (X2 W) in Y. }
  rewrite (X _ _ (areach_S _ _ _ R E) Su'), (X _ _ R Su). apply woken_cons.
Qed.
Print Assumptions C147_who_is_woken.


(** One that nobody forestalls gets the first connection that came: no other has taken or dropped one since it was suspended. *)
Theorem C147_alone s i to w c l : areach s -> suspended i to w (a_tr s) -> woken w -> gone w = [] -> came w = c :: l ->
  ∃ s', aperform (AAWake i) s = Some s' ∧ a_tr s' = AGot i (Some c) false :: a_tr s.
Proof.
  intros R Su W G C. destruct (C147_returns _ _ _ _ R Su) as [X _]. destruct (X W) as (s' & E & T). exists s'. split; [done|]. rewrite T.
  destruct Su as (u & Tu & _). destruct (C145_suspended_when_none s w i (ACall i to :: u) R Tu) as (_ & _ & Q). simpl in Q.
  assert (pending (a_tr s) = c :: l) as ->; [|done]. unfold pending. rewrite Tu, came_app, gone_app, G, C. simpl. rewrite app_nil_r, Q. apply drop_app.
Qed.
Print Assumptions C147_alone.

(** ** Examples *)
Lemma aplay_reach l s : areach s -> areach (aplay l s).
Proof. revert s. induction l as [|a l IH]; intros s R; [done|]. simpl. destruct (aperform a s) as [s'|] eqn:E; [|done]. apply IH. by eapply areach_S. Qed.
(** Three coroutines wait; two connections come before the first runs; the third, woken too, gets nullptr; a fourth times out. *)
Example ex144 : a_tr (aplay [AAListen; AACall 1 None; AACall 2 None; AACall 3 (Some 9); AAArrive 70; AASignal; AAArrive 71; AASignal; AAWake 1; AAWake 2; AAWake 3; AACall 4 (Some 1); AATick; AAExpire 4; AAClose; AACall 1 None] acceptors0) =
  [AGot 1 None false; ACall 1 None; AClosed []; AGot 4 None true; ATick; ASuspended 4; ACall 4 (Some 1); AGot 3 None false; AGot 2 (Some 71) false; AGot 1 (Some 70) false; ASignal; AArrive 71; ASignal; AArrive 70;
   ASuspended 3; ACall 3 (Some 9); ASuspended 2; ACall 2 None; ASuspended 1; ACall 1 None; AListen].
Proof. reflexivity. Qed.
(** The hypotheses of C145 to C147 are met. *)
Example ex145 : let s := aplay [AAListen; AACall 1 None; AACall 2 None; AAArrive 7; AASignal; AAWake 1; AAWake 2] acceptors0 in
  areach s ∧ ∃ l1 w, a_tr s = AGot 2 None false :: l1 ∧ called 2 None w l1 ∧ listening l1 = true ∧ woken w ∧ came w = [7] ∧ gone w = [7].
Proof.
  cbv zeta. split; [apply aplay_reach, areach_0|]. eexists _, [AGot 1 (Some 7) false; ASignal; AArrive 7]. split; [reflexivity|]. split_and!; try done.
  - right. eexists. split; [reflexivity|]. intros e H. rewrite !elem_of_cons, elem_of_nil in H. naive_solver.
  - right. left.
Qed.
Example ex146 : let s := aplay [AAListen; AACall 1 None; AACall 2 None] acceptors0 in
  areach s ∧ listening (a_tr s) = true ∧ pending (a_tr s) = [] ∧ suspended 1 None [ASuspended 2; ACall 2 None] (a_tr s) ∧ suspended 2 None [] (a_tr s).
Proof.
  cbv zeta. split_and!; [apply aplay_reach, areach_0|done|done| |].
  - eexists. split; [reflexivity|]. intros e H. rewrite !elem_of_cons, elem_of_nil in H. naive_solver.
  - eexists. split; [reflexivity|]. by intros e ?%not_elem_of_nil.
Qed.
(** Closing the server leaves a coroutine suspended. *)
Example ex147 : let s := aplay [AAListen; AACall 1 None] acceptors0 in let s' := aplay [AAClose] s in
  areach s ∧ aperform AAClose s = Some s' ∧ a_tr s' = AClosed [] :: a_tr s ∧ suspended 1 None [] (a_tr s).
Proof.
  cbv zeta. split_and!; [apply aplay_reach, areach_0|done|done|]. eexists. split; [reflexivity|]. by intros e ?%not_elem_of_nil.
Qed.
(** One that nobody forestalls. *)
Example ex147_alone : let s := aplay [AAListen; AACall 1 None; AAArrive 7; AASignal; AAArrive 8] acceptors0 in
  areach s ∧ suspended 1 None [AArrive 8; ASignal; AArrive 7] (a_tr s) ∧ woken [AArrive 8; ASignal; AArrive 7] ∧ gone [AArrive 8; ASignal; AArrive 7] = [] ∧ came [AArrive 8; ASignal; AArrive 7] = [7; 8].
Proof.
  cbv zeta. split_and!; [apply aplay_reach, areach_0| |right; left|done|done]. eexists. split; [reflexivity|]. intros e H. rewrite !elem_of_cons, elem_of_nil in H. naive_solver.
Qed.
