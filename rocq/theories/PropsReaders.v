(** * C133-C136: any number of coroutines read from one device *)
From stdpp Require Import prelude.
From Verif Require Import QtModel QtSpec QtObj QtIO QtIOSpec QtIOFacts ReadersModel.

(** ** Vocabulary, about the trace of events (newest first) *)
(** The bytes that have become available, and those that were read (by anyone) or dropped, in order. *)
Fixpoint came (tr : list dev) : list byte := match tr with [] => [] | DArrive b :: l => came l ++ b | _ :: l => came l end.
Fixpoint gone (tr : list dev) : list byte := match tr with [] => [] | (DGot _ b _ | DTaken b | DClosed b) :: l => gone l ++ b | _ :: l => gone l end.
Definition unread (tr : list dev) : list byte := drop (length (gone tr)) (came tr).
Fixpoint ticks (l : list dev) : nat := match l with [] => 0 | DTick :: l => S (ticks l) | _ :: l => ticks l end.
(** Events of coroutine [i]. *)
Definition about (i : nat) (e : dev) : bool := match e with DStart j _ _ | DSuspended j | DGot j _ _ | DDestroyed j => bool_decide (j = i) | _ => false end.
Definition silent (i : nat) (w : list dev) : Prop := ∀ e, e ∈ w -> about i e = false.
(** Coroutine [i] is suspended in a call of [o] with timeout [to]; [w] happened since. *)
Definition suspended (i : nat) (o : rop) (to : option nat) (w tr : list dev) : Prop := ∃ u, tr = w ++ DSuspended i :: DStart i o to :: u ∧ silent i w.
(** The call now returns, and [w] happened since it was made. *)
Definition called (i : nat) (o : rop) (to : option nat) (w tr : list dev) : Prop :=
  (∃ u, tr = DStart i o to :: u ∧ w = []) ∨ suspended i o to w tr.
Definition woken (w : list dev) : Prop := DReady ∈ w ∨ DClosing ∈ w.
Definition closed (tr : list dev) : Prop := ∃ b, DClosed b ∈ tr.
(** co_await device has no timeout. *)
Definition timeout_of (o : rop) (to : option nat) : option nat := match o with OMember _ => to | ODevice => None end.

(** ** Invariant *)
Definition tick (e : dev) : nat := match e with DTick => 1 | _ => 0 end.

Definition co_inv (s : dst) (i : nat) : Prop :=
  match d_co s i with
  | CElse => ∀ o to w, ¬ suspended i o to w (d_tr s)
  | CWait o dl => ∃ to w, suspended i o to w (d_tr s) ∧ ¬ woken w ∧ ∃ t, d_now s = t + ticks w ∧ dl = (λ n, t + n) <$> timeout_of o to
  | CPosted o dl => ∃ to w, suspended i o to w (d_tr s) ∧ woken w ∧ ∃ t, d_now s = t + ticks w ∧ dl = (λ n, t + n) <$> timeout_of o to
  | CDead => DDestroyed i ∈ d_tr s ∧ ∀ o to w, ¬ suspended i o to w (d_tr s)
  end.
Record inv (s : dst) : Prop := Inv {
  i_buf : came (d_tr s) = gone (d_tr s) ++ d_buf s;
  i_open : d_open s = true <-> ¬ closed (d_tr s);
  i_shut : d_open s = false -> d_buf s = [];
  i_co i : co_inv s i }.

Lemma suspended_inj i o to w o' to' w' tr : suspended i o to w tr -> suspended i o' to' w' tr -> o = o' ∧ to = to' ∧ w = w'.
Proof.
  intros (u & E & Si) (u' & E' & Si'). rewrite E in E'. clear E tr. revert w' E' Si'. induction w as [|x w IH]; intros w' E' Si'.
  - destruct w' as [|y w']; [by simplify_eq|]. injection E' as <- _. specialize (Si' (DSuspended i) (elem_of_list_here _ _)). simpl in Si'. by rewrite bool_decide_eq_true_2 in Si'.
  - destruct w' as [|y w'].
    + injection E' as -> _. specialize (Si (DSuspended i) (elem_of_list_here _ _)). simpl in Si. by rewrite bool_decide_eq_true_2 in Si.
    + injection E' as <- E'. destruct (IH (λ e He, Si e (elem_of_list_further _ _ _ He)) w' E' (λ e He, Si' e (elem_of_list_further _ _ _ He))) as (-> & -> & ->). done.
Qed.
Lemma suspended_cons i o to w e tr : about i e = false -> suspended i o to w tr -> suspended i o to (e :: w) (e :: tr).
Proof. intros A (u & -> & Si). exists u. split; [done|]. intros x [->|H]%elem_of_cons; [done|by apply Si]. Qed.
Lemma suspended_uncons i o to w e tr : about i e = false -> suspended i o to w (e :: tr) -> ∃ w', w = e :: w' ∧ suspended i o to w' tr.
Proof.
  intros A (u & E & Si). destruct w as [|x w].
  - injection E as -> _. simpl in A. by rewrite bool_decide_eq_true_2 in A.
  - injection E as <- ->. exists w. split; [done|]. exists u. split; [done|]. intros x H. apply Si. by right.
Qed.
Lemma not_suspended i e tr o to w : about i e = true -> e ≠ DSuspended i -> ¬ suspended i o to w (e :: tr).
Proof. intros A N (u & E & Si). destruct w as [|x w]; [by injection E as ->|]. injection E as <- ->. rewrite (Si e) in A; [done|by left]. Qed.
Lemma ticks_cons e w : ticks (e :: w) = tick e + ticks w.
Proof. by destruct e. Qed.
Lemma woken_cons e w : woken (e :: w) <-> e = DReady ∨ e = DClosing ∨ woken w.
Proof. unfold woken. rewrite !elem_of_cons. naive_solver. Qed.
Lemma closed_cons e tr : closed (e :: tr) <-> (∃ b, e = DClosed b) ∨ closed tr.
Proof. unfold closed. setoid_rewrite elem_of_cons. naive_solver. Qed.

Lemma closed_dec tr : closed tr ∨ ¬ closed tr.
Proof.
  induction tr as [|e tr [IH|IH]]; [right; by intros [? ?%not_elem_of_nil]|left; apply closed_cons; by right|].
  destruct e; first [left; apply closed_cons; left; by eexists|right; rewrite closed_cons; by intros [[? ?]|?]].
Qed.

(** An event that does not concern [i], nor all coroutines. *)
Lemma co_other (s : dst) s' i e : about i e = false -> e ≠ DReady -> e ≠ DClosing -> d_tr s' = e :: d_tr s -> d_co s' i = d_co s i ->
  d_now s' = tick e + d_now s -> co_inv s i -> co_inv s' i.
Proof.
  intros A N1 N2 T C Nw I. unfold co_inv in *. rewrite C, T, Nw. destruct (d_co s i) as [|o dl|o dl|].
  - intros o to w Su. apply suspended_uncons in Su as (w' & _ & Su); [|done]. by eapply I.
  - destruct I as (to & w & Su & W & t & E & D). exists to, (e :: w). split; [by apply suspended_cons|]. split; [rewrite woken_cons; naive_solver|].
    exists t. split; [rewrite ticks_cons; lia|done].
  - destruct I as (to & w & Su & W & t & E & D). exists to, (e :: w). split; [by apply suspended_cons|]. split; [rewrite woken_cons; naive_solver|].
    exists t. split; [rewrite ticks_cons; lia|done].
  - destruct I as [D I]. split; [by right|]. intros o to w Su. apply suspended_uncons in Su as (w' & _ & Su); [|done]. by eapply I.
Qed.
Lemma co_wake (s s' : dst) i e : e = DReady ∨ e = DClosing -> d_tr s' = e :: d_tr s -> d_co s' = wake_all (d_co s) -> d_now s' = d_now s -> co_inv s i -> co_inv s' i.
Proof.
  intros Ee T C Nw I. assert (about i e = false) as A by (by destruct Ee; subst).
  assert (∀ w, woken (e :: w)) as W by (intros; rewrite woken_cons; naive_solver). assert (tick e = 0) as N by (by destruct Ee; subst).
  unfold co_inv in *. rewrite C, T, Nw. unfold wake_all. destruct (d_co s i) as [|o dl|o dl|].
  - intros o to w Su. apply suspended_uncons in Su as (w' & _ & Su); [|done]. by eapply I.
  - destruct I as (to & w & Su & _ & t & E & D). exists to, (e :: w). split; [by apply suspended_cons|]. split; [done|]. exists t. rewrite ticks_cons, N. done.
  - destruct I as (to & w & Su & _ & t & E & D). exists to, (e :: w). split; [by apply suspended_cons|]. split; [done|]. exists t. rewrite ticks_cons, N. done.
  - destruct I as [D I]. split; [by right|]. intros o to w Su. apply suspended_uncons in Su as (w' & _ & Su); [|done]. by eapply I.
Qed.
Lemma co_got (s' : dst) i b late tr : d_tr s' = DGot i b late :: tr -> d_co s' i = CElse -> co_inv s' i.
Proof. intros T C. unfold co_inv. rewrite C, T. intros o to w. apply not_suspended; [|done]. simpl. by rewrite bool_decide_eq_true_2. Qed.

Lemma set_same i c f : set_co i c f i = c.
Proof. unfold set_co. by rewrite decide_True. Qed.
Lemma set_other i j c f : j ≠ i -> set_co i c f j = f j.
Proof. intros. unfold set_co. by rewrite decide_False. Qed.
Lemma inv_0 : inv readers0.
Proof.
  constructor; simpl; try done; [split; [intros _ [b H]; by apply not_elem_of_nil in H|done]|].
  intros i o to w (u & E & _). by destruct w.
Qed.

Lemma not_about i j e : about i e = true -> j ≠ i -> about j e = false.
Proof. destruct e; simpl; try done; rewrite bool_decide_eq_true, bool_decide_eq_false; congruence. Qed.
(** One event of coroutine [i]; the others are not concerned. *)
Lemma co_step (s s' : dst) i j e c : about i e = true -> d_tr s' = e :: d_tr s -> d_co s' = set_co i c (d_co s) -> d_now s' = d_now s ->
  (∀ k, co_inv s k) -> co_inv s' i -> co_inv s' j.
Proof.
  intros A T C Nw I Ii. destruct (decide (j = i)) as [->|N]; [done|].
  assert (tick e = 0 ∧ e ≠ DReady ∧ e ≠ DClosing) as (N1 & N2 & N3) by (by destruct e).
  eapply (co_other s _ _ e); try done; [by eapply not_about|by rewrite C, set_other|by rewrite N1].
Qed.
Lemma step_take s i r : inv s -> inv (take_bytes i r s).
Proof.
  intros []. constructor; simpl.
  - by rewrite <- app_assoc, take_drop.
  - rewrite i_open0, closed_cons. naive_solver.
  - intros E. by rewrite (i_shut0 E), drop_nil.
  - intros j. eapply (co_step s _ i j (DGot i _ false)); try done; [simpl; by rewrite bool_decide_eq_true_2|]. by eapply co_got; [done|apply set_same].
Qed.
Lemma step_inv s s' a : inv s -> dperform a s = Some s' -> inv s'.
Proof.
  intros I E.
  assert (∀ i o to, d_co s i = CElse -> inv (Dst (d_open s) (d_buf s) (d_co s) (d_now s) (DStart i o to :: d_tr s))) as Start.
  { intros i o to C. destruct I as [I1 I2 I3 I4]. constructor; simpl; try done.
    - rewrite I2, closed_cons. naive_solver.
    - intros j. destruct (decide (j = i)) as [->|N].
      + unfold co_inv. simpl. rewrite C. intros o' to' w. apply not_suspended; [|done]. simpl. by rewrite bool_decide_eq_true_2.
      + eapply (co_other s _ _ (DStart i o to)); try done. simpl. by rewrite bool_decide_eq_false_2. }
  assert (∀ i o to dl, d_co s i = CElse -> dl = (λ n, d_now s + n) <$> timeout_of o to ->
    inv (Dst (d_open s) (d_buf s) (set_co i (CWait o dl) (d_co s)) (d_now s) (DSuspended i :: DStart i o to :: d_tr s))) as Wait.
  { intros i o to dl C D. destruct (Start i o to C) as [I1 I2 I3 I4]. constructor; simpl in *; try done.
    - rewrite I2, !closed_cons. naive_solver.
    - intros j. eapply (co_step (Dst (d_open s) (d_buf s) (d_co s) (d_now s) (DStart i o to :: d_tr s)) _ i j (DSuspended i)); try done; [simpl; by rewrite bool_decide_eq_true_2|].
      unfold co_inv. simpl. rewrite set_same. exists to, []. split; [|split; [by intros [?%not_elem_of_nil|?%not_elem_of_nil]|exists (d_now s); split; [simpl; lia|done]]].
      exists (d_tr s). split; [done|]. by intros e ?%not_elem_of_nil. }
  assert (∀ i b s0, inv s0 -> b = [] -> ∀ late, inv (Dst (d_open s0) (d_buf s0) (set_co i CElse (d_co s0)) (d_now s0) (DGot i b late :: d_tr s0))) as Nothing.
  { intros i b s0 I0 -> late. destruct I0 as [I1 I2 I3 I4]. constructor; simpl.
    - by rewrite app_nil_r.
    - rewrite I2, closed_cons. naive_solver.
    - done.
    - intros j. eapply (co_step s0 _ i j (DGot i [] late)); try done; [simpl; by rewrite bool_decide_eq_true_2|]. by eapply co_got; [done|apply set_same]. }
  destruct a as [i o to|i|i|i|b| | | |n|]; simpl in E.
  - destruct (d_co s i) eqn:C; try discriminate. simplify_eq. pose proof (Start i o to C) as St.
    destruct o as [r|]; destruct (negb (d_open s)).
    + by apply (Nothing i [] _ St).
    + case_match; [by apply Wait|]. by apply (step_take _ i r St).
    + by apply (step_take _ i RAll St).
    + case_match; [by apply Wait|]. by apply (step_take _ i RAll St).
  - destruct (d_co s i) eqn:C; try discriminate. simplify_eq. by apply step_take.
  - destruct (d_co s i) as [|o [d|]|o [d|]|] eqn:C; try discriminate; case_decide; try discriminate; simplify_eq; by apply Nothing.
  - assert (inv (Dst (d_open s) (d_buf s) (set_co i CDead (d_co s)) (d_now s) (DDestroyed i :: d_tr s))) as H.
    { destruct I as [I1 I2 I3 I4]. constructor; simpl; try done; [rewrite I2, closed_cons; naive_solver|]. intros j.
      eapply (co_step s _ i j (DDestroyed i)); try done; [simpl; by rewrite bool_decide_eq_true_2|]. unfold co_inv. simpl. rewrite set_same. split; [by left|].
      intros o to w. apply not_suspended; [|done]. simpl. by rewrite bool_decide_eq_true_2. }
    destruct (d_co s i) as [|[r|] dl|[r|] dl|]; try discriminate; by simplify_eq.
  - destruct (d_open s) eqn:O; simplify_eq. destruct I as [I1 I2 I3 I4]. constructor; simpl; try done.
    + by rewrite I1, app_assoc.
    + apply I2 in O. rewrite closed_cons. naive_solver.
    + intros j. by eapply (co_other s _ _ (DArrive b)).
  - destruct (d_open s) eqn:O; simplify_eq. destruct I as [I1 I2 I3 I4]. constructor; simpl; try done.
    + apply I2 in O. rewrite closed_cons. naive_solver.
    + intros j. eapply (co_wake s _ _ DReady); try done. by left.
  - destruct (d_open s) eqn:O; simplify_eq. destruct I as [I1 I2 I3 I4]. constructor; simpl; try done.
    + apply I2 in O. rewrite closed_cons. naive_solver.
    + intros j. eapply (co_wake s _ _ DClosing); try done. by right.
  - destruct (d_open s) eqn:O; simplify_eq. destruct I as [I1 I2 I3 I4]. constructor; simpl; try done.
    + by rewrite I1, app_nil_r.
    + rewrite closed_cons. naive_solver.
    + intros j. by eapply (co_other s _ _ (DClosed (d_buf s))).
  - simplify_eq. destruct I as [I1 I2 I3 I4]. constructor; simpl.
    + by rewrite <- app_assoc, take_drop.
    + rewrite I2, closed_cons. naive_solver.
    + intros O. by rewrite (I3 O), drop_nil.
    + intros j. by eapply (co_other s _ _ (DTaken _)).
  - simplify_eq. destruct I as [I1 I2 I3 I4]. constructor; simpl; try done.
    + rewrite I2, closed_cons. naive_solver.
    + intros j. by eapply (co_other s _ _ DTick).
Qed.
Lemma reach_inv s : dreach s -> inv s.
Proof. induction 1; [apply inv_0|by eapply step_inv]. Qed.
Lemma unread_buf s : inv s -> unread (d_tr s) = d_buf s.
Proof. intros I. unfold unread. by rewrite (i_buf _ I), drop_app. Qed.
Lemma inv_suspended s i o to w : inv s -> suspended i o to w (d_tr s) ->
  (∃ dl, d_co s i = CWait o dl ∧ ¬ woken w ∧ ∃ t, d_now s = t + ticks w ∧ dl = (λ n, t + n) <$> timeout_of o to) ∨
  (∃ dl, d_co s i = CPosted o dl ∧ woken w ∧ ∃ t, d_now s = t + ticks w ∧ dl = (λ n, t + n) <$> timeout_of o to).
Proof.
  intros I Su. pose proof (i_co _ I i) as C. unfold co_inv in C. destruct (d_co s i) as [|o' dl|o' dl|].
  - by apply C in Su.
  - destruct C as (to' & w' & Su' & W & T). destruct (suspended_inj _ _ _ _ _ _ _ _ Su Su') as (-> & -> & ->). left. by exists dl.
  - destruct C as (to' & w' & Su' & W & T). destruct (suspended_inj _ _ _ _ _ _ _ _ Su Su') as (-> & -> & ->). right. by exists dl.
  - destruct C as [_ C]. by apply C in Su.
Qed.

(** ** C133: all bytes are read once and in order, and each read function returns what it should *)
(** What a call may return: nothing after its timeout; else the front of what can be read now, at once if there is something (or the device is closed), or after a signal. *)
Definition good_result (i : nat) (b : list byte) (late : bool) (l1 : list dev) : Prop :=
  ∃ o to w, called i o to w l1 ∧
    if late then b = [] ∧ ∃ n, timeout_of o to = Some n ∧ n ≤ ticks w
    else reads (kind_of o) (unread l1) b (unread (DGot i b late :: l1)) ∧ (suspended i o to w l1 ∧ woken w ∨ w = [] ∧ (unread l1 ≠ [] ∨ closed l1)).

Lemma reads_now s i o to w l1 r : inv s -> d_tr s = l1 -> kind_of o = r -> called i o to w l1 ->
  (suspended i o to w l1 ∧ woken w ∨ w = [] ∧ (d_buf s ≠ [] ∨ closed l1)) -> good_result i (take (rlen r (d_buf s)) (d_buf s)) false l1.
Proof.
  intros I E K C W. exists o, to, w. subst l1. rewrite (unread_buf _ I). split; [done|]. split; [|done].
  assert (unread (DGot i (take (rlen r (d_buf s)) (d_buf s)) false :: d_tr s) = drop (rlen r (d_buf s)) (d_buf s)) as ->.
  { unfold unread. simpl. rewrite (i_buf _ I). set (n := rlen r (d_buf s)).
    replace (gone (d_tr s) ++ d_buf s) with ((gone (d_tr s) ++ take n (d_buf s)) ++ drop n (d_buf s)) by (by rewrite <- app_assoc, take_drop). apply drop_app. }
  subst r. apply reads_rlen.
Qed.
Lemma step_good s s' a l2 i b late l1 : inv s -> dperform a s = Some s' -> d_tr s' = l2 ++ DGot i b late :: l1 ->
  good_result i b late l1 ∨ ∃ l2', d_tr s = l2' ++ DGot i b late :: l1.
Proof.
  intros I E T.
  assert (∀ e, (∀ i b late, e ≠ DGot i b late) -> ∀ tr l2, e :: tr = l2 ++ DGot i b late :: l1 -> ∃ l2', tr = l2' ++ DGot i b late :: l1) as Skip.
  { intros e N tr [|x l] X; [by injection X as ->; edestruct N|]. injection X as _ ->. by exists l. }
  assert (∀ i o to, d_co s i = CElse -> inv (Dst (d_open s) (d_buf s) (d_co s) (d_now s) (DStart i o to :: d_tr s))) as Start.
  { intros i' o to C. destruct I as [I1 I2 I3 I4]. constructor; simpl; try done.
    - rewrite I2, closed_cons. naive_solver.
    - intros j. destruct (decide (j = i')) as [->|N].
      + unfold co_inv. simpl. rewrite C. intros o' to' w. apply not_suspended; [|done]. simpl. by rewrite bool_decide_eq_true_2.
      + eapply (co_other s _ _ (DStart i' o to)); try done. simpl. by rewrite bool_decide_eq_false_2. }
  destruct a as [k o to|k|k|k|x| | | |n|]; simpl in E.
  - destruct (d_co s k) eqn:C; try discriminate. pose proof (Start k o to C) as St.
    assert (∀ r s1, s1 = Dst (d_open s) (d_buf s) (d_co s) (d_now s) (DStart k o to :: d_tr s) -> kind_of o = r -> d_buf s ≠ [] ∨ closed (d_tr s) -> d_tr (take_bytes k r s1) = l2 ++ DGot i b late :: l1 ->
      good_result i b late l1 ∨ ∃ l2', d_tr s = l2' ++ DGot i b late :: l1) as Now.
    { intros r s1 -> K A T'. simpl in T'. destruct l2 as [|x l2].
      - injection T' as <- <- <- <-. left.
        apply (reads_now (Dst (d_open s) (d_buf s) (d_co s) (d_now s) (DStart k o to :: d_tr s)) k o to [] _ r St eq_refl K); [left; by eexists|].
        right. split; [done|]. simpl. destruct A as [A|A]; [by left|right]. apply closed_cons. by right.
      - injection T' as _ T'. right. by eapply Skip; [|exact T']. }
    assert (DSuspended k :: DStart k o to :: d_tr s = l2 ++ DGot i b late :: l1 -> good_result i b late l1 ∨ ∃ l2', d_tr s = l2' ++ DGot i b late :: l1) as Susp.
    { intros T'. right. apply Skip in T' as [l2' T']; [|done]. apply Skip in T' as [l2'' T']; [|done]. by exists l2''. }
    assert (d_open s = false -> closed (d_tr s)) as Cl.
    { intros O. destruct (closed_dec (d_tr s)) as [|N]; [done|]. apply (i_open _ I) in N. congruence. }
    destruct o as [r|]; destruct (d_open s) eqn:O; simpl in E; simplify_eq; simpl in T.
    + destruct (d_buf s) eqn:B; [by apply Susp|]. rewrite <- B in *. eapply Now; [done|done|left; congruence|exact T].
    + eapply (Now r); [done|done|right; by apply Cl|]. simpl. rewrite (i_shut _ I O). destruct r as [|n|[|n]]; simpl; rewrite ?Nat.min_0_r; exact T.
    + destruct (d_buf s) eqn:B; [by apply Susp|]. rewrite <- B in *. eapply (Now RAll); [done|done|left; congruence|exact T].
    + eapply (Now RAll); [done|done|right; by apply Cl|exact T].
  - destruct (d_co s k) as [| |o dl|] eqn:C; try discriminate. simplify_eq. simpl in T. pose proof (i_co _ I k) as Ck. unfold co_inv in Ck. rewrite C in Ck. destruct Ck as (to & w & Su & W & _).
    destruct l2 as [|x l2]; [|injection T as _ T; right; by exists l2]. injection T as <- <- <- <-. left. apply (reads_now s k o to w); try done; [by right|by left].
  - assert (∀ o d, (d_co s k = CWait o (Some d) ∨ d_co s k = CPosted o (Some d)) -> d ≤ d_now s -> DGot k [] true :: d_tr s = l2 ++ DGot i b late :: l1 -> good_result i b late l1 ∨ ∃ l2', d_tr s = l2' ++ DGot i b late :: l1) as Late.
    { intros o d C L T'. destruct l2 as [|x l2]; [|injection T' as _ T'; right; by exists l2]. injection T' as <- <- <- <-. left.
      assert (∃ to w, suspended k o to w (d_tr s) ∧ ∃ t, d_now s = t + ticks w ∧ Some d = (λ n, t + n) <$> timeout_of o to) as (to & w & Su & t & Nw & D).
      { pose proof (i_co _ I k) as Ck. unfold co_inv in Ck. destruct C as [C|C]; rewrite C in Ck; destruct Ck as (to & w & Su & _ & X); by exists to, w. }
      exists o, to, w. split; [by right|]. split; [done|]. destruct (timeout_of o to) as [n|]; [|done]. injection D as ->. exists n. split; [done|]. lia. }
    destruct (d_co s k) as [|o [d|]|o [d|]|] eqn:C; try discriminate; case_decide; try discriminate; simplify_eq; eapply Late; eauto.
  - right. destruct (d_co s k) as [|[r|] dl|[r|] dl|]; try discriminate; simplify_eq; by eapply Skip; [|exact T].
  - destruct (d_open s); simplify_eq. right. by eapply Skip; [|exact T].
  - destruct (d_open s); simplify_eq. right. by eapply Skip; [|exact T].
  - destruct (d_open s); simplify_eq. right. by eapply Skip; [|exact T].
  - destruct (d_open s); simplify_eq. right. by eapply Skip; [|exact T].
  - simplify_eq. right. by eapply Skip; [|exact T].
  - simplify_eq. right. by eapply Skip; [|exact T].
Qed.

Lemma prefixes s l2 l1 : dreach s -> d_tr s = l2 ++ l1 -> gone l1 `prefix_of` came l1.
Proof.
  intros R. revert l2 l1. induction R as [|s s' a R IH E]; intros l2 l1 T; [destruct l2; [|done]; simpl in T; by subst|].
  pose proof (reach_inv _ (dreach_S _ _ _ R E)) as I'.
  assert ((∃ e, d_tr s' = e :: d_tr s) ∨ (∃ e i o to, d_tr s' = e :: DStart i o to :: d_tr s)) as [(e & X)|(e & i & o & to & X)].
  { destruct a as [k o to|k|k|k|x| | | |n|]; simpl in E; repeat (case_match; try discriminate); simplify_eq; simpl; first [left; by eexists|right; by repeat eexists]. }
  - destruct l2 as [|x l2]; [simpl in T; subst l1; exists (d_buf s'); apply (i_buf _ I')|]. rewrite X in T. injection T as _ T. by eapply IH.
  - destruct l2 as [|x l2]; [simpl in T; subst l1; exists (d_buf s'); apply (i_buf _ I')|]. rewrite X in T. injection T as _ T.
    destruct l2 as [|y l2]; [simpl in T; subst l1; simpl; by apply (IH [] (d_tr s))|]. injection T as _ T. by eapply IH.
Qed.

Theorem C133_stream s : dreach s ->
  gone (d_tr s) `prefix_of` came (d_tr s) ∧
  ∀ l2 i b late l1, d_tr s = l2 ++ DGot i b late :: l1 -> good_result i b late l1.
Proof.
  intros R. split; [by apply (prefixes s [])|].
  induction R as [|s s' a R IH E]; intros l2 i b late l1 T; [by destruct l2|].
  destruct (step_good _ _ _ _ _ _ _ _ (reach_inv _ R) E T) as [|[l2' T']]; [done|by eapply IH].
Qed.
Print Assumptions C133_stream.

(** ** C134: when a read returns nothing *)
Lemma came_app w u : came (w ++ u) = came u ++ came w.
Proof. induction w as [|e w IH]; simpl; [by rewrite app_nil_r|]. destruct e; rewrite IH; by rewrite ?app_assoc. Qed.
Lemma gone_app w u : gone (w ++ u) = gone u ++ gone w.
Proof. induction w as [|e w IH]; simpl; [by rewrite app_nil_r|]. destruct e; rewrite IH; by rewrite ?app_assoc. Qed.
Lemma suspended_empty s l2 i l1 : dreach s -> d_tr s = l2 ++ DSuspended i :: l1 -> came l1 = gone l1 ∧ ¬ closed l1.
Proof.
  intros R. revert l2. induction R as [|s s' a R IH E]; intros l2 T; [by destruct l2|]. pose proof (reach_inv _ R) as I.
  assert (∀ e, (∀ i, e ≠ DSuspended i) -> ∀ tr l2, e :: tr = l2 ++ DSuspended i :: l1 -> ∃ l2', tr = l2' ++ DSuspended i :: l1) as Skip.
  { intros e N tr [|x l] X; [by injection X as ->; edestruct N|]. injection X as _ ->. by exists l. }
  assert ((∃ e, d_tr s' = e :: d_tr s ∧ ∀ i, e ≠ DSuspended i) ∨ (∃ i b o to, d_tr s' = DGot i b false :: DStart i o to :: d_tr s) ∨
    (∃ i o to, d_tr s' = DSuspended i :: DStart i o to :: d_tr s ∧ d_open s = true ∧ d_buf s = [])) as [(e & X & N)|[(k & b & o & to & X)|(k & o & to & X & O & B)]].
  { destruct a as [k o to|k|k|k|x| | | |n|]; simpl in E; repeat (case_match; try discriminate); simplify_eq; simpl;
      first [left; by eexists|right; left; by repeat eexists|right; right; eexists _, _, _; split_and!; try done; by apply negb_false_iff]. }
  - rewrite X in T. apply Skip in T as [l2' T]; [|done]. by eapply IH.
  - rewrite X in T. apply Skip in T as [l2' T]; [|done]. apply Skip in T as [l2'' T]; [|done]. by eapply IH.
  - rewrite X in T. destruct l2 as [|x l2].
    + injection T as -> <-. simpl. split; [by rewrite (i_buf _ I), B, app_nil_r|]. rewrite closed_cons. intros [[? ?]|H]; [done|]. by apply (i_open _ I) in O.
    + injection T as _ T. apply Skip in T as [l2' T]; [|done]. by eapply IH.
Qed.
Lemma called_inj i o to w o' to' w' tr : called i o to w tr -> called i o' to' w' tr -> o = o' ∧ to = to' ∧ w = w'.
Proof.
  assert (∀ u w o to o' to', DStart i o to :: u = w -> ¬ suspended i o' to' w' w) as X.
  { intros u w0 o0 to0 o1 to1 <-. apply not_suspended; [|done]. simpl. by rewrite bool_decide_eq_true_2. }
  intros [(u & E & ->)|S1] [(u' & E' & ->)|S2].
  - by simplify_eq.
  - exfalso. revert S2. rewrite E. apply not_suspended; [|done]. simpl. by rewrite bool_decide_eq_true_2.
  - exfalso. revert S1. rewrite E'. apply not_suspended; [|done]. simpl. by rewrite bool_decide_eq_true_2.
  - by eapply suspended_inj.
Qed.

Lemma reads_nil r x y : reads r x [] y -> r ≠ RMax 0 -> x = [].
Proof.
  intros [E H] N. simpl in E. subst y. destruct r as [|n|n].
  - done.
  - destruct x; [done|]. destruct n; [done|]. simpl in H. lia.
  - destruct H as (_ & _ & [H|[H|[H1 H2]]]); [done|done|]. simpl in H2. lia.
Qed.

(** A read that returns nothing although it asked for something: the device is closed; or the timeout is over; or it was woken, and whatever had come meanwhile
    was read by others. *)
Theorem C134_nothing s l2 i late l1 o to w : dreach s -> d_tr s = l2 ++ DGot i [] late :: l1 -> called i o to w l1 -> kind_of o ≠ RMax 0 ->
  closed l1 ∨ (∃ n, timeout_of o to = Some n ∧ n ≤ ticks w) ∨ (woken w ∧ came w = gone w).
Proof.
  intros R T C K. destruct (C133_stream _ R) as [_ G]. destruct (G _ _ _ _ _ T) as (o' & to' & w' & C' & H).
  destruct (called_inj _ _ _ _ _ _ _ _ C C') as (<- & <- & <-). destruct late; [right; left; by destruct H|].
  destruct H as [Rd [[Su W]|[-> [N|Cl]]]]; [|by apply (reads_nil _ _ _ Rd) in K|by left].
  right. right. split; [done|]. apply (reads_nil _ _ _ Rd) in K.
  assert (came l1 = gone l1) as Q.
  { assert (gone l1 `prefix_of` came l1) as [y Y].
    { eapply (prefixes s (l2 ++ [DGot i [] false]) l1 R). by rewrite T, <- app_assoc. }
    unfold unread in K. rewrite Y, drop_app in K. subst y. by rewrite Y, app_nil_r. }
  destruct Su as (u & E & _). subst l1.
  assert (came (DStart i o to :: u) = gone (DStart i o to :: u)) as Q0.
  { eapply (suspended_empty s (l2 ++ DGot i [] false :: w) i (DStart i o to :: u) R). by rewrite T, <- app_assoc. }
  rewrite came_app, gone_app in Q. simpl in Q, Q0. rewrite Q0 in Q. by apply app_inv_head in Q.
Qed.
Print Assumptions C134_nothing.

(** A read is suspended only while nothing can be read and the device is open. *)
Theorem C134_suspended_when_empty s l2 i l1 : dreach s -> d_tr s = l2 ++ DSuspended i :: l1 -> unread l1 = [] ∧ ¬ closed l1.
Proof. intros R T. destruct (suspended_empty _ _ _ _ R T) as [E C]. split; [|done]. unfold unread. by rewrite E, drop_all. Qed.
Print Assumptions C134_suspended_when_empty.

(** ** C135: a read that need not stop at a timeout returns data when data arrives. Refuted: another coroutine may get it all *)
Theorem C135_refuted s i j oi oj ti tj wi wj b : dreach s -> ¬ closed (d_tr s) -> i ≠ j -> suspended i oi ti wi (d_tr s) -> suspended j oj tj wj (d_tr s) -> kind_of oi = RAll ->
  ∃ s', dreach s' ∧ d_tr s' = DGot j [] false :: DGot i (unread (d_tr s) ++ b) false :: DReady :: DArrive b :: d_tr s.
Proof.
  intros R O N Si Sj K. pose proof (reach_inv _ R) as I. apply (i_open _ I) in O. rewrite (unread_buf _ I).
  assert (∃ di dj, wake_all (d_co s) i = CPosted oi di ∧ wake_all (d_co s) j = CPosted oj dj) as (di & dj & Ei & Ej).
  { unfold wake_all. destruct (inv_suspended _ _ _ _ _ I Si) as [(di & -> & _)|(di & -> & _)], (inv_suspended _ _ _ _ _ I Sj) as [(dj & -> & _)|(dj & -> & _)]; by exists di, dj. }
  set (s1 := Dst true (d_buf s ++ b) (d_co s) (d_now s) (DArrive b :: d_tr s)).
  set (s2 := Dst true (d_buf s ++ b) (wake_all (d_co s)) (d_now s) (DReady :: DArrive b :: d_tr s)).
  assert (dreach s2) as R2.
  { eapply (dreach_S s1 _ DAReady); [|done]. eapply (dreach_S s _ (DAArrive b)); [done|]. simpl. by rewrite O. }
  set (s3 := take_bytes i RAll s2).
  assert (dreach s3) as R3. { eapply (dreach_S s2 _ (DAWake i)); [done|]. simpl. by rewrite Ei, K. }
  exists (take_bytes j (kind_of oj) s3). split.
  - eapply (dreach_S s3 _ (DAWake j)); [done|]. simpl. by rewrite set_other, Ej.
  - assert (d_buf s3 = []) as B3 by (simpl; apply drop_all).
    assert (d_tr s3 = DGot i (d_buf s ++ b) false :: DReady :: DArrive b :: d_tr s) as T3 by (simpl; by rewrite firstn_all).
    unfold take_bytes at 1. cbn [d_tr]. rewrite B3, T3. by rewrite take_nil.
Qed.
Print Assumptions C135_refuted.

(** ** C136: which reads return *)
(** One that was woken returns as soon as its event is delivered, which is possible from then on; one that was not does not, unless its timeout is over. *)
Theorem C136_returns s i o to w : dreach s -> suspended i o to w (d_tr s) ->
  (woken w -> ∃ s' b, dperform (DAWake i) s = Some s' ∧ d_tr s' = DGot i b false :: d_tr s) ∧
  (¬ woken w -> dperform (DAWake i) s = None) ∧
  ((∃ n, timeout_of o to = Some n ∧ n ≤ ticks w) <-> ∃ s', dperform (DAExpire i) s = Some s') ∧
  (∀ s', dperform (DAExpire i) s = Some s' -> d_tr s' = DGot i [] true :: d_tr s).
Proof.
  intros R Su. pose proof (reach_inv _ R) as I.
  destruct (inv_suspended _ _ _ _ _ I Su) as [(dl & C & W & t & Nw & ->)|(dl & C & W & t & Nw & ->)]; simpl; rewrite C; (split_and!; [intros W'; try done|intros W'; try done| |]).
  1,4: split; [intros (n & -> & L); simpl; rewrite decide_True by lia; by eexists|intros [s' E]; destruct (timeout_of o to) as [n|]; [|done]; simpl in E; case_decide; [|done]; exists n; split; [done|lia]].
  1,3: intros s' E; destruct (timeout_of o to) as [n|]; [|done]; simpl in E; case_decide; [|done]; by simplify_eq.
  by eexists _, _.
Qed.
Print Assumptions C136_returns.

(** Once readyRead or aboutToClose is emitted, everyone who is suspended has been woken. *)
Theorem C136_all_woken s s' a e i o to w : dreach s -> dperform a s = Some s' -> d_tr s' = e :: d_tr s -> e = DReady ∨ e = DClosing -> suspended i o to w (d_tr s) ->
  suspended i o to (e :: w) (d_tr s') ∧ woken (e :: w).
Proof.
  intros R E T Ee Su. split; [|rewrite woken_cons; naive_solver]. rewrite T. apply suspended_cons; [by destruct Ee; subst|done].
Qed.


(** One that nobody forestalls reads what has come since it was suspended. *)
Theorem C136_alone s i o to w : dreach s -> suspended i o to w (d_tr s) -> woken w -> gone w = [] ->
  ∃ s' b, dperform (DAWake i) s = Some s' ∧ d_tr s' = DGot i b false :: d_tr s ∧ reads (kind_of o) (came w) b (unread (d_tr s')).
Proof.
  intros R Su W G. destruct (C136_returns _ _ _ _ _ R Su) as [X _]. destruct (X W) as (s' & b & E & T). exists s', b. split; [done|]. split; [done|]. rewrite T.
  destruct (C133_stream _ (dreach_S _ _ _ R E)) as [_ Y]. destruct (Y [] _ _ _ _ T) as (o' & to' & w' & Cl & Rd & _).
  destruct (called_inj _ _ _ _ _ _ _ _ (or_intror Su) Cl) as (<- & <- & <-).
  destruct Su as (u & Tu & _). destruct (suspended_empty s w i (DStart i o to :: u) R Tu) as [Q _]. simpl in Q.
  assert (unread (d_tr s) = came w) as <-; [|done]. unfold unread. rewrite Tu, came_app, gone_app, G. simpl. rewrite app_nil_r, Q. apply drop_app.
Qed.
Print Assumptions C136_alone.

(** ** Examples *)
(** Two coroutines wait; a line arrives in two parts; a third reads after them. *)
Definition ex_two : list dact := [DAStart 1 (OMember (RLine 0)) None; DAStart 2 (OMember (RMax 2)) (Some 3); DAArrive [7; 8; 9]; DAReady; DAWake 2; DAArrive [10; 5]; DAWake 1; DAStart 3 ODevice None].
Example ex133 : d_tr (dplay ex_two readers0) =
  [DGot 3 [5] false; DStart 3 ODevice None; DGot 1 [9; 10] false; DArrive [10; 5]; DGot 2 [7; 8] false; DReady; DArrive [7; 8; 9];
   DSuspended 2; DStart 2 (OMember (RMax 2)) (Some 3); DSuspended 1; DStart 1 (OMember (RLine 0)) None].
Proof. reflexivity. Qed.
Lemma dplay_reach l s : dreach s -> dreach (dplay l s).
Proof. revert s. induction l as [|a l IH]; intros s R; [done|]. simpl. destruct (dperform a s) as [s'|] eqn:E; [|done]. apply IH. by eapply dreach_S. Qed.
(** The hypotheses of C134 to C136 are met. *)
Example ex134 : let s := dplay [DAStart 1 ODevice None; DAStart 2 (OMember (RMax 2)) None; DAArrive [7; 8]; DAReady; DAWake 1; DAWake 2] readers0 in
  dreach s ∧ ∃ l1 w, d_tr s = DGot 2 [] false :: l1 ∧ called 2 (OMember (RMax 2)) None w l1 ∧ ¬ closed l1 ∧ woken w ∧ came w = [7; 8] ∧ gone w = [7; 8].
Proof.
  cbv zeta. split; [apply dplay_reach, dreach_0|]. eexists _, [DGot 1 [7; 8] false; DReady; DArrive [7; 8]]. split; [reflexivity|]. split_and!; try done.
  - right. eexists. split; [reflexivity|]. intros e H. rewrite !elem_of_cons, elem_of_nil in H. naive_solver.
  - intros [b H]. simpl in H. rewrite !elem_of_cons, elem_of_nil in H. naive_solver.
  - left. right. left.
Qed.
Example ex135 : let s := dplay [DAStart 1 ODevice None; DAStart 2 (OMember (RMax 2)) None] readers0 in
  dreach s ∧ ¬ closed (d_tr s) ∧ suspended 1 ODevice None [DSuspended 2; DStart 2 (OMember (RMax 2)) None] (d_tr s) ∧ suspended 2 (OMember (RMax 2)) None [] (d_tr s).
Proof.
  cbv zeta. split_and!; [apply dplay_reach, dreach_0| | |].
  - intros [b H]. simpl in H. rewrite !elem_of_cons, elem_of_nil in H. naive_solver.
  - eexists. split; [reflexivity|]. intros e H. rewrite !elem_of_cons, elem_of_nil in H. naive_solver.
  - eexists. split; [reflexivity|]. by intros e ?%not_elem_of_nil.
Qed.
(** One that nobody forestalls. *)
Example ex136_alone : let s := dplay [DAStart 1 (OMember (RMax 2)) None; DAArrive [7; 8; 9]; DAReady] readers0 in
  dreach s ∧ suspended 1 (OMember (RMax 2)) None [DReady; DArrive [7; 8; 9]] (d_tr s) ∧ woken [DReady; DArrive [7; 8; 9]] ∧ gone [DReady; DArrive [7; 8; 9]] = [] ∧ came [DReady; DArrive [7; 8; 9]] = [7; 8; 9].
Proof.
  cbv zeta. split_and!; [apply dplay_reach, dreach_0| |left; left|done|done]. eexists. split; [reflexivity|]. intros e H. rewrite !elem_of_cons, elem_of_nil in H. naive_solver.
Qed.
