(** * C137-C139: any number of coroutines write to one device *)
From stdpp Require Import prelude.
From Verif Require Import WritersModel.

(** ** Vocabulary, about the trace of events (newest first) *)
(** Numbers of bytes put into the write buffer, taken from it and reported, dropped when the device was closed. *)
Fixpoint queued (l : list wev) : nat := match l with [] => 0 | WWrite _ _ q :: l => q + queued l | _ :: l => queued l end.
Fixpoint reported (l : list wev) : nat := match l with [] => 0 | WReport n :: l => n + reported l | _ :: l => reported l end.
Fixpoint dropped (l : list wev) : nat := match l with [] => 0 | WClosed d :: l => d + dropped l | _ :: l => dropped l end.
Definition buffered (tr : list wev) : nat := queued tr - reported tr - dropped tr.
Definition about (i : nat) (e : wev) : bool := match e with WWrite j _ _ | WSuspended j | WGot j _ | WSpin j | WDestroyed j => bool_decide (j = i) | _ => false end.
(** Coroutine [i] is in a call of write() of which [a] bytes were accepted; [w] happened since. *)
Definition called (i a : nat) (w tr : list wev) : Prop := ∃ q u, tr = w ++ WWrite i a q :: u ∧ ∀ e, e ∈ w -> about i e = true -> e = WSuspended i.
(** It is suspended; [w] happened since. *)
Definition suspended (i : nat) (w tr : list wev) : Prop := ∃ u, tr = w ++ WSuspended i :: u ∧ ∀ e, e ∈ w -> about i e = false.
Definition woken (w : list wev) : Prop := (∃ n, WReport n ∈ w) ∨ WClosing ∈ w.
Definition closed (tr : list wev) : Prop := ∃ d, WClosed d ∈ tr.
(** Nothing is reported while a coroutine has been woken but not yet resumed. *)
Definition timely (tr : list wev) : Prop := ∀ l2 n l1, tr = l2 ++ WReport n :: l1 -> ∀ i w, suspended i w l1 -> ¬ woken w.
(** Whatever is accepted goes to the write buffer. *)
Definition all_queued (tr : list wev) : Prop := ∀ i a q, WWrite i a q ∈ tr -> q = a.

(** ** Invariant *)
Definition conf_ok (s : wst) (i total c : nat) : Prop := ∃ w, called i total w (v_tr s) ∧ c ≤ reported w ∧ (timely (v_tr s) -> c = reported w) ∧
  (timely (v_tr s) -> all_queued (v_tr s) -> ¬ closed (v_tr s) -> total ≤ c + v_out s).
Definition co_inv (s : wst) (i : nat) : Prop :=
  match v_co s i with
  | CElse => ∀ w, ¬ suspended i w (v_tr s)
  | CWait t c => c < t ∧ conf_ok s i t c ∧ ∃ w, suspended i w (v_tr s) ∧ ¬ woken w
  | CPosted t c n => c < t ∧ conf_ok s i t (c + n) ∧ ∃ w, suspended i w (v_tr s) ∧ woken w
  | CDead => ∀ w, ¬ suspended i w (v_tr s)
  end.
Record base (s : wst) : Prop := Base {
  b_out : queued (v_tr s) = reported (v_tr s) + dropped (v_tr s) + v_out s;
  b_open : v_open s = true <-> ¬ closed (v_tr s);
  b_shut : v_open s = false -> v_out s = 0 }.
Definition inv (s : wst) : Prop := base s ∧ ∀ i, co_inv s i.

Lemma suspended_inj i w w' tr : suspended i w tr -> suspended i w' tr -> w = w'.
Proof.
  intros (u & E & Si) (u' & E' & Si'). rewrite E in E'. clear E tr. revert w' E' Si'. induction w as [|x w IH]; intros w' E' Si'.
  - destruct w' as [|y w']; [done|]. injection E' as <- _. specialize (Si' (WSuspended i) (elem_of_list_here _ _)). simpl in Si'. by rewrite bool_decide_eq_true_2 in Si'.
  - destruct w' as [|y w'].
    + injection E' as -> _. specialize (Si (WSuspended i) (elem_of_list_here _ _)). simpl in Si. by rewrite bool_decide_eq_true_2 in Si.
    + injection E' as <- E'. f_equal. apply IH; [|done|]; intros e He; [apply Si|apply Si']; by right.
Qed.
Lemma suspended_cons i w e tr : about i e = false -> suspended i w tr -> suspended i (e :: w) (e :: tr).
Proof. intros A (u & -> & Si). exists u. split; [done|]. intros x [->|H]%elem_of_cons; [done|by apply Si]. Qed.
Lemma suspended_uncons i w e tr : about i e = false -> suspended i w (e :: tr) -> ∃ w', w = e :: w' ∧ suspended i w' tr.
Proof.
  intros A (u & E & Si). destruct w as [|x w].
  - injection E as -> _. simpl in A. by rewrite bool_decide_eq_true_2 in A.
  - injection E as <- ->. exists w. split; [done|]. exists u. split; [done|]. intros x H. apply Si. by right.
Qed.
Lemma not_suspended i e tr w : about i e = true -> e ≠ WSuspended i -> ¬ suspended i w (e :: tr).
Proof. intros A N (u & E & Si). destruct w as [|x w]; [by injection E as ->|]. injection E as <- ->. rewrite (Si e) in A; [done|by left]. Qed.
Lemma called_cons i a w e tr : (about i e = true -> e = WSuspended i) -> called i a w tr -> called i a (e :: w) (e :: tr).
Proof. intros A (q & u & -> & Si). exists q, u. split; [done|]. intros x [->|H]%elem_of_cons; [done|by apply Si]. Qed.
Lemma closed_cons e tr : closed (e :: tr) <-> (∃ d, e = WClosed d) ∨ closed tr.
Proof. unfold closed. setoid_rewrite elem_of_cons. naive_solver. Qed.
Lemma woken_cons e w : woken (e :: w) <-> (∃ n, e = WReport n) ∨ e = WClosing ∨ woken w.
Proof. unfold woken. setoid_rewrite elem_of_cons. naive_solver. Qed.
Lemma timely_cons e tr : timely (e :: tr) -> timely tr.
Proof. intros T l2 n l1 E. apply (T (e :: l2) n l1). by rewrite E. Qed.
Lemma queued_cons e tr : all_queued (e :: tr) -> all_queued tr.
Proof. intros T i a q H. apply (T i a q). by right. Qed.
Lemma about_self i e : (∃ a q, e = WWrite i a q) ∨ e = WSuspended i ∨ (∃ n, e = WGot i n) ∨ e = WSpin i ∨ e = WDestroyed i -> about i e = true.
Proof. intros [(? & ? & ->)|[->|[[? ->]|[->| ->]]]]; simpl; by rewrite bool_decide_eq_true_2. Qed.
Lemma about_other i j e : about i e = true -> j ≠ i -> about j e = false.
Proof. destruct e; simpl; try done; rewrite bool_decide_eq_true, bool_decide_eq_false; congruence. Qed.

(** An event that neither concerns [i] nor wakes anyone. *)
Definition quiet (e : wev) : Prop := match e with WReport _ | WClosing => False | _ => True end.
Lemma conf_other (s s' : wst) i e t c : quiet e -> (about i e = true -> e = WSuspended i) -> v_tr s' = e :: v_tr s -> (v_out s ≤ v_out s' ∨ closed (v_tr s')) -> conf_ok s i t c -> conf_ok s' i t c.
Proof.
  intros Q A T O (w & C & L & Eq & B). exists (e :: w). rewrite T in *. assert (reported (e :: w) = reported w) as -> by (by destruct e).
  split; [by apply called_cons|]. split; [done|]. split; [intros X; by apply Eq, (timely_cons e)|].
  intros X1 X2 X3. destruct O as [O|O]; [|done]. assert (t ≤ c + v_out s); [|lia]. apply B; [by apply (timely_cons e)|by apply (queued_cons e)|].
  intros X. apply X3. apply closed_cons. by right.
Qed.
Lemma co_other (s s' : wst) i e : quiet e -> about i e = false -> v_tr s' = e :: v_tr s -> v_co s' i = v_co s i -> (v_out s ≤ v_out s' ∨ closed (v_tr s')) -> co_inv s i -> co_inv s' i.
Proof.
  intros Q A T C O I. unfold co_inv in *. rewrite C. assert (about i e = true -> e = WSuspended i) as A' by congruence.
  assert ((∀ w, ¬ suspended i w (v_tr s)) -> ∀ w, ¬ suspended i w (v_tr s')) as N.
  { intros I0 w Su. rewrite T in Su. apply suspended_uncons in Su as (w' & _ & Su); [|done]. by eapply I0. }
  destruct (v_co s i); [by apply N| | |by apply N].
  - destruct I as (L & K & w & Su & W). split; [done|]. split; [by eapply conf_other|]. exists (e :: w). rewrite T. split; [by apply suspended_cons|].
    rewrite woken_cons. intros [[? ->]|[->|?]]; done.
  - destruct I as (L & K & w & Su & W). split; [done|]. split; [by eapply conf_other|]. exists (e :: w). rewrite T. split; [by apply suspended_cons|].
    rewrite woken_cons. by right; right.
Qed.
(** An emission. *)
Lemma co_wake (s s' : wst) i e n : (e = WReport n ∨ e = WClosing ∧ n = 0) -> v_tr s' = e :: v_tr s -> v_co s' = ready n (v_co s) -> v_out s = n + v_out s' -> co_inv s i -> co_inv s' i.
Proof.
  intros Ee T C O I. assert (about i e = false) as A by (by destruct Ee as [->|[-> _]]).
  assert (about i e = true -> e = WSuspended i) as A' by congruence.
  assert (∀ w, woken (e :: w)) as W by (intros; rewrite woken_cons; naive_solver).
  assert (∀ w, reported (e :: w) = n + reported w) as Rp by (by destruct Ee as [->|[-> ->]]).
  assert (closed (v_tr s') -> closed (v_tr s)) as Cl by (rewrite T, closed_cons; destruct Ee as [->|[-> _]]; naive_solver).
  assert (closed (v_tr s) -> closed (v_tr s')) as Cl' by (rewrite T, closed_cons; by right).
  assert ((∀ w, ¬ suspended i w (v_tr s)) -> ∀ w, ¬ suspended i w (v_tr s')) as N.
  { intros I0 w Su. rewrite T in Su. apply suspended_uncons in Su as (w' & _ & Su); [|done]. by eapply I0. }
  unfold co_inv in *. rewrite C. unfold ready. destruct (v_co s i) as [|t c|t c m|]; [by apply N| | |by apply N].
  - destruct I as (L & (w' & K & L' & Eq & B) & w & Su & _). split; [done|]. split.
    + exists (e :: w'). rewrite Rp, T. split; [by apply called_cons|]. split; [lia|]. split; [intros X; rewrite (Eq (timely_cons _ _ X)); lia|].
      intros X1 X2 X3. rewrite <- T in X3. assert (t ≤ c + v_out s); [|lia]. apply B; [by apply (timely_cons e)|by apply (queued_cons e)|by intros X%Cl'].
    + exists (e :: w). rewrite T. split; [by apply suspended_cons|done].
  - destruct I as (L & (w' & K & L' & Eq & B) & w & Su & Wk). split; [done|]. split.
    + exists (e :: w'). rewrite Rp, T. split; [by apply called_cons|]. split; [lia|].
      assert (timely (e :: v_tr s) -> n = 0) as Z. { intros X. destruct Ee as [->|[_ ->]]; [|done]. by destruct (X [] n (v_tr s) eq_refl i w Su). }
      split; [intros X; rewrite (Eq (timely_cons _ _ X)), (Z X); lia|].
      intros X1 X2 X3. rewrite <- T in X3. assert (t ≤ c + m + v_out s); [|pose proof (Z X1); lia]. apply B; [by apply (timely_cons e)|by apply (queued_cons e)|by intros X%Cl'].
    + exists (e :: w). rewrite T. split; [by apply suspended_cons|done].
Qed.

Lemma set_same i c f : set_co i c f i = c.
Proof. unfold set_co. by rewrite decide_True. Qed.
Lemma set_other i j c f : j ≠ i -> set_co i c f j = f j.
Proof. intros. unfold set_co. by rewrite decide_False. Qed.

(** The loop from a state in which all is well but for coroutine [i], which has [c] confirmed. *)
Lemma loop_inv s i t c : base s -> (∀ j, j ≠ i -> co_inv s j) -> conf_ok s i t c -> v_hang s = false ->
  base (loop i t c s) ∧ (∀ j, j ≠ i -> co_inv (loop i t c s) j) ∧ (v_hang (loop i t c s) = false -> co_inv (loop i t c s) i).
Proof.
  intros B O K H. assert (∀ s' e, v_tr s' = e :: v_tr s -> quiet e -> about i e = true -> (∀ j, j ≠ i -> v_co s' j = v_co s j) -> v_out s' = v_out s -> ∀ j, j ≠ i -> co_inv s' j) as Oth.
  { intros s' e T Q A C V j N. eapply (co_other s s' j e); try done; [by eapply about_other|by apply C|left; lia|by apply O]. }
  assert (∀ op out co hg e, op = v_open s -> out = v_out s -> quiet e -> (∀ d, e ≠ WClosed d) -> (∀ i a q, e ≠ WWrite i a q) -> base (Wst op out co hg (e :: v_tr s))) as Bs.
  { intros op out co hg e -> -> Q N1 N2. destruct B as [B1 B2 B3]. constructor; simpl; [destruct e; try done; [by edestruct N2|by edestruct N1]| |done].
    rewrite B2, closed_cons. naive_solver. }
  unfold loop. destruct (decide (c < t)) as [L|L]; [destruct (v_open s) eqn:Op; [destruct (decide (v_out s = 0)) as [Z|Z]|]|]; split_and!; rewrite <- ?Op; try (by apply Bs).
  - apply (Oth _ (WSpin i)); try done; simpl; by rewrite bool_decide_eq_true_2.
  - simpl. congruence.
  - apply (Oth _ (WSuspended i)); try done; [simpl; by rewrite bool_decide_eq_true_2|]. intros j N. simpl. by rewrite set_other.
  - intros _. unfold co_inv. simpl. rewrite set_same. split; [done|]. split; [eapply (conf_other s _ i (WSuspended i)); try done; left; simpl; lia|].
    exists []. split; [exists (v_tr s); split; [done|by intros e ?%not_elem_of_nil]|]. by intros [[? ?%not_elem_of_nil]|?%not_elem_of_nil].
  - apply (Oth _ (WGot i c)); try done; [simpl; by rewrite bool_decide_eq_true_2|]. intros j N. simpl. by rewrite set_other.
  - intros _. unfold co_inv. simpl. rewrite set_same. intros w. apply not_suspended; [|done]. simpl. by rewrite bool_decide_eq_true_2.
  - apply (Oth _ (WGot i c)); try done; [simpl; by rewrite bool_decide_eq_true_2|]. intros j N. simpl. by rewrite set_other.
  - intros _. unfold co_inv. simpl. rewrite set_same. intros w. apply not_suspended; [|done]. simpl. by rewrite bool_decide_eq_true_2.
Qed.
Lemma inv_0 : inv writers0.
Proof.
  split; [constructor; simpl; [done|split; [intros _ [b H]; by apply not_elem_of_nil in H|done]|done]|].
  intros i w (u & E & _). by destruct w.
Qed.
Lemma step_inv s s' a : inv s -> wperform a s = Some s' -> base s' ∧ (v_hang s' = false -> ∀ i, co_inv s' i) ∧
  (v_hang s' = true -> ∃ i, (∀ j, j ≠ i -> co_inv s' j) ∧ ∃ tr, v_tr s' = WSpin i :: tr ∧ v_out s' = 0 ∧ v_open s' = true).
Proof.
  intros [B I] E. unfold wperform in E. destruct (v_hang s) eqn:H; [done|].
  assert (∀ s0 i t c, base s0 -> (∀ j, j ≠ i -> co_inv s0 j) -> conf_ok s0 i t c -> v_hang s0 = false -> let s1 := loop i t c s0 in
    base s1 ∧ (v_hang s1 = false -> ∀ i, co_inv s1 i) ∧ (v_hang s1 = true -> ∃ i, (∀ j, j ≠ i -> co_inv s1 j) ∧ ∃ tr, v_tr s1 = WSpin i :: tr ∧ v_out s1 = 0 ∧ v_open s1 = true)) as Lp.
  { intros s0 i t c B0 O0 K0 H0. destruct (loop_inv s0 i t c B0 O0 K0 H0) as (B1 & O1 & I1). split_and!; [done| |].
    - intros H1 j. destruct (decide (j = i)) as [->|N]; [by apply I1|by apply O1].
    - intros H1. exists i. split; [done|]. exists (v_tr s0). unfold loop in *. destruct (decide (c < t)); [destruct (v_open s0) eqn:Op; [destruct (decide (v_out s0 = 0))|]|]; simpl in *; done. }
  destruct a as [i a q|i|i|n| |].
  - destruct (v_co s i) eqn:C; try done. case_decide as D; [|done]. simplify_eq. set (s0 := Wst (v_open s) (v_out s + q) (v_co s) false (WWrite i a q :: v_tr s)).
    apply Lp; [| | |done].
    + destruct B as [B1 B2 B3]. constructor; simpl; [lia|rewrite B2, closed_cons; naive_solver|]. intros Op. rewrite (B3 Op). destruct D as [D1 D2]. apply D2 in Op. lia.
    + intros j N. apply (co_other s s0 j (WWrite i a q)); try done; [simpl; by rewrite bool_decide_eq_false_2|left; simpl; lia].
    + exists []. split; [exists q, (v_tr s); split; [done|by intros e ?%not_elem_of_nil]|]. split; [lia|]. split; [done|]. intros _ Q _. simpl. rewrite (Q i a q); [lia|by left].
  - destruct (v_co s i) as [| |t c n|] eqn:C; try done. simplify_eq. apply Lp; try done. specialize (I i). unfold co_inv in I. rewrite C in I. by destruct I as (_ & K & _).
  - assert (s' = Wst (v_open s) (v_out s) (set_co i CDead (v_co s)) false (WDestroyed i :: v_tr s)) as -> by (destruct (v_co s i); by simplify_eq). clear E. split_and!; [| |done].
    + destruct B as [B1 B2 B3]. constructor; simpl; [done|rewrite B2, closed_cons; naive_solver|done].
    + intros _ j. destruct (decide (j = i)) as [->|N].
      * unfold co_inv. simpl. rewrite set_same. intros w. apply not_suspended; [|done]. simpl. by rewrite bool_decide_eq_true_2.
      * apply (co_other s _ j (WDestroyed i)); try done; [simpl; by rewrite bool_decide_eq_false_2|simpl; by rewrite set_other|left; simpl; lia].
  - case_decide as D; [|done]. simplify_eq. destruct D as (Op & D1 & D2). split_and!; [| |done].
    + destruct B as [B1 B2 B3]. constructor; simpl; [lia|apply B2 in Op; rewrite closed_cons; naive_solver|done].
    + intros _ j. apply (co_wake s _ j (WReport n) n); try done; [by left|simpl; lia].
  - destruct (v_open s) eqn:Op; [|done]. simplify_eq. split_and!; [| |done].
    + destruct B as [B1 B2 B3]. constructor; simpl; [done|apply B2 in Op; rewrite closed_cons; naive_solver|done].
    + intros _ j. apply (co_wake s _ j WClosing 0); try done. by right.
  - destruct (v_open s) eqn:Op; [|done]. simplify_eq. split_and!; [| |done].
    + destruct B as [B1 B2 B3]. constructor; simpl; [lia|rewrite closed_cons; naive_solver|done].
    + intros _ j. apply (co_other s _ j (WClosed (v_out s))); try done. right. simpl. apply closed_cons. left. by eexists.
Qed.
(** Reachable: all is well, or the thread hangs, which it did not before. *)
Lemma reach_inv s : wreach s -> (v_hang s = false ∧ inv s) ∨
  (v_hang s = true ∧ base s ∧ ∃ i, (∀ j, j ≠ i -> co_inv s j) ∧ ∃ tr, v_tr s = WSpin i :: tr ∧ v_out s = 0 ∧ v_open s = true).
Proof.
  induction 1 as [|s s' a R IH E]; [left; split; [done|apply inv_0]|].
  destruct IH as [[_ I]|(H & _)]; [|unfold wperform in E; by rewrite H in E].
  destruct (step_inv _ _ _ I E) as (B & I1 & I2). destruct (v_hang s') eqn:H; [right|left]; split; try done; [|split; [done|by apply I1]]. split; [done|]. by apply I2.
Qed.

Lemma loop_ev i t c s : ∃ e, v_tr (loop i t c s) = e :: v_tr s ∧
  (e = WSuspended i ∨ (e = WGot i c ∧ (t ≤ c ∨ v_open s = false)) ∨ (e = WSpin i ∧ c < t ∧ v_open s = true ∧ v_out s = 0)).
Proof.
  unfold loop. destruct (decide (c < t)); [destruct (v_open s); [destruct (decide (v_out s = 0))|]|]; simpl; eexists; (split; [done|]); [right; right; done|by left|right; left..]; (split; [done|]); [by right|left; lia].
Qed.
(** What a call that ends by event [e] after [l1] has done. *)
Definition end_ok (i : nat) (e : wev) (l1 : list wev) : Prop := ∃ a c w, called i a w l1 ∧ c ≤ reported w ∧ (timely l1 -> c = reported w) ∧
  ((e = WGot i c ∧ (a ≤ c ∨ closed l1)) ∨ (e = WSpin i ∧ c < a ∧ ¬ closed l1 ∧ buffered l1 = 0 ∧ ¬ (timely l1 ∧ all_queued l1))).
Definition ending (i : nat) (e : wev) : Prop := e = WSpin i ∨ ∃ n, e = WGot i n.

Lemma closed_dec tr : closed tr ∨ ¬ closed tr.
Proof.
  induction tr as [|e tr [IH|IH]]; [right; by intros [? ?%not_elem_of_nil]|left; apply closed_cons; by right|].
  destruct e; first [left; apply closed_cons; left; by eexists|right; rewrite closed_cons; by intros [[? ?]|?]].
Qed.
Lemma base_closed s : base s -> v_open s = false -> closed (v_tr s).
Proof. intros B O. destruct (closed_dec (v_tr s)) as [|N]; [done|]. apply (b_open _ B) in N. congruence. Qed.
Lemma base_buf s : base s -> buffered (v_tr s) = v_out s.
Proof. intros B. unfold buffered. rewrite (b_out _ B). lia. Qed.

Lemma loop_end s i t c j e l2 l1 : base s -> conf_ok s i t c -> v_tr (loop i t c s) = l2 ++ e :: l1 -> ending j e -> end_ok j e l1 ∨ ∃ l2', v_tr s = l2' ++ e :: l1.
Proof.
  intros B (w & C & L & Eq & Bd) T En. destruct (loop_ev i t c s) as (e' & T' & H). rewrite T' in T. destruct l2 as [|x l2]; [|injection T as _ T; right; by exists l2].
  injection T as -> <-. left. destruct H as [->|[[-> H]|(-> & L' & Op & Z)]].
  - by destruct En as [?|[? ?]].
  - destruct En as [|[n En]]; [done|]. injection En as <- <-. exists t, c, w. split_and!; try done. left. split; [done|]. destruct H as [|H]; [by left|right; by apply base_closed].
  - destruct En as [En|[n En]]; [|done]. injection En as <-. exists t, c, w. split_and!; try done. right. pose proof (proj1 (b_open _ B) Op) as NC. split_and!; try done.
    + by rewrite base_buf.
    + intros [X1 X2]. specialize (Bd X1 X2 NC). lia.
Qed.
Lemma ends_ok s l2 j e l1 : wreach s -> v_tr s = l2 ++ e :: l1 -> ending j e -> end_ok j e l1.
Proof.
  intros R. revert l2. induction R as [|s s' a R IH E]; intros l2 T En; [by destruct l2|].
  destruct (reach_inv _ R) as [[H [B I]]|(H & _)]; [|unfold wperform in E; by rewrite H in E].
  assert (∀ e' tr l2, e' :: tr = l2 ++ e :: l1 -> ¬ ending j e' -> ∃ l2', tr = l2' ++ e :: l1) as Skip.
  { intros e' tr [|x l] X N; [by injection X as ->|]. injection X as _ ->. by exists l. }
  assert (∀ e', v_tr s' = e' :: v_tr s -> ¬ ending j e' -> end_ok j e l1) as Old. { intros e' T' N. rewrite T' in T. apply Skip in T as [l2' T]; [|done]. by eapply IH. }
  unfold wperform in E. rewrite H in E. destruct a as [i a q|i|i|n| |].
  - destruct (v_co s i) eqn:C; try done. case_decide as D; [|done]. simplify_eq. set (s0 := Wst (v_open s) (v_out s + q) (v_co s) false (WWrite i a q :: v_tr s)) in *.
    assert (base s0) as B0.
    { destruct B as [B1 B2 B3]. constructor; simpl; [lia|rewrite B2, closed_cons; naive_solver|]. intros Op. rewrite (B3 Op). destruct D as [D1 D2]. apply D2 in Op. lia. }
    assert (conf_ok s0 i a 0) as K0.
    { exists []. split; [exists q, (v_tr s); split; [done|by intros ? ?%not_elem_of_nil]|]. split; [lia|]. split; [done|]. intros _ Q _. simpl. rewrite (Q i a q); [lia|by left]. }
    destruct (loop_end s0 i a 0 j e l2 l1 B0 K0 T En) as [|[l2' T']]; [done|]. apply Skip in T' as [l3 T']; [by eapply IH|]. intros [?|[? ?]]; done.
  - destruct (v_co s i) as [| |t c n|] eqn:C; try done. simplify_eq. specialize (I i). unfold co_inv in I. rewrite C in I. destruct I as (_ & K & _).
    destruct (loop_end s i t (c + n) j e l2 l1 B K T En) as [|[l2' T']]; [done|by eapply IH].
  - assert (v_tr s' = WDestroyed i :: v_tr s) as T' by (destruct (v_co s i); by simplify_eq). apply (Old _ T'). intros [?|[? ?]]; done.
  - case_decide; [|done]. simplify_eq. apply (Old _ eq_refl). intros [?|[? ?]]; done.
  - destruct (v_open s); [|done]. simplify_eq. apply (Old _ eq_refl). intros [?|[? ?]]; done.
  - destruct (v_open s); [|done]. simplify_eq. apply (Old _ eq_refl). intros [?|[? ?]]; done.
Qed.

(** ** C137: what write() returns when several coroutines write *)
(** At most the number of bytes reported since the call, and exactly that if reports are timely; all that was accepted, or the device is closed. *)
Theorem C137_result s l2 i n l1 : wreach s -> v_tr s = l2 ++ WGot i n :: l1 ->
  ∃ a w, called i a w l1 ∧ n ≤ reported w ∧ (timely l1 -> n = reported w) ∧ (a ≤ n ∨ closed l1).
Proof.
  intros R T. destruct (ends_ok s l2 i (WGot i n) l1 R T) as (a & c & w & C & L & Eq & [[Ec X]|[Ec _]]); [right; by eexists| |done].
  injection Ec as <-. by exists a, w.
Qed.
Print Assumptions C137_result.

(** ** C138: when write() returns what was accepted, these bytes have left the buffer. Refuted *)
Lemma dead_destroyed s i : wreach s -> v_co s i = CDead -> WDestroyed i ∈ v_tr s.
Proof.
  induction 1 as [|s s' a R IH E]; [done|]. intros D.
  assert (∀ e, v_tr s' = e :: v_tr s -> (e = WDestroyed i ∨ v_co s i = CDead) -> WDestroyed i ∈ v_tr s') as K.
  { intros e -> [->|H]; [by left|right; by apply IH]. }
  assert (∀ k t c s0, v_co (loop k t c s0) i = CDead -> v_co s0 i = CDead) as Lp.
  { intros k t c s0. unfold loop. destruct (decide (i = k)) as [->|N]; repeat case_decide; try case_match; simpl; rewrite ?set_same, ?set_other by done; done. }
  unfold wperform in E. destruct (v_hang s); [done|]. destruct a as [k a q|k|k|n| |].
  - destruct (v_co s k); try done. case_decide; [|done]. simplify_eq. apply Lp in D. simpl in D. destruct (loop_ev k a 0 (Wst (v_open s) (v_out s + q) (v_co s) false (WWrite k a q :: v_tr s))) as (e & -> & _).
    right. right. by apply IH.
  - destruct (v_co s k); try done. simplify_eq. apply Lp in D. destruct (loop_ev k total (conf + n) s) as (e & -> & _). right. by apply IH.
  - assert (s' = Wst (v_open s) (v_out s) (set_co k CDead (v_co s)) false (WDestroyed k :: v_tr s)) as -> by (destruct (v_co s k); by simplify_eq). simpl in *.
    destruct (decide (i = k)) as [->|N]; [by left|]. rewrite set_other in D by done. right. by apply IH.
  - case_decide; [|done]. simplify_eq. simpl in D. unfold ready in D. apply (K _ eq_refl). right. by destruct (v_co s i).
  - destruct (v_open s); [|done]. simplify_eq. simpl in D. unfold ready in D. apply (K _ eq_refl). right. by destruct (v_co s i).
  - destruct (v_open s); [|done]. simplify_eq. apply (K _ eq_refl). by right.
Qed.

(** Whenever there is something in the buffer, a coroutine that writes no more than that may be told that it was written when no byte of it was. *)
Theorem C138_refuted s i a : wreach s -> ¬ closed (v_tr s) -> (∀ j, WSpin j ∉ v_tr s) -> WDestroyed i ∉ v_tr s -> (∀ w, ¬ suspended i w (v_tr s)) -> 0 < a ≤ buffered (v_tr s) ->
  let k := buffered (v_tr s) in
  ∃ s', wreach s' ∧ v_tr s' = WGot i k :: WReport k :: WSuspended i :: WWrite i a a :: v_tr s ∧ a ≤ k ∧ buffered (v_tr s') = a.
Proof.
  intros R O Sp D Su A k. destruct (reach_inv _ R) as [[H [B I]]|(_ & _ & j & _ & tr & T & _)]; [|by destruct (Sp j); rewrite T; left].
  unfold k in *. clear k. rewrite (base_buf _ B) in *. apply (b_open _ B) in O.
  assert (v_co s i = CElse) as C.
  { specialize (I i). unfold co_inv in I. destruct (v_co s i) eqn:C; [done| | |by destruct D; apply dead_destroyed].
    - destruct I as (_ & _ & w & X & _). by apply Su in X.
    - destruct I as (_ & _ & w & X & _). by apply Su in X. }
  set (s1 := Wst (v_open s) (v_out s + a) (set_co i (CWait a 0) (v_co s)) false (WSuspended i :: WWrite i a a :: v_tr s)).
  assert (wreach s1) as R1.
  { eapply (wreach_S s _ (WAWrite i a a)); [done|]. unfold wperform. rewrite H, C. rewrite decide_True by (split; [lia|intros X; congruence]). f_equal. unfold loop. simpl. rewrite decide_True by lia.
    rewrite O. rewrite decide_False by lia. unfold s1. by rewrite O. }
  set (s2 := Wst true (v_out s + a - v_out s) (ready (v_out s) (v_co s1)) false (WReport (v_out s) :: v_tr s1)).
  assert (wreach s2) as R2.
  { eapply (wreach_S s1 _ (WAReport (v_out s))); [done|]. unfold wperform. simpl. rewrite decide_True by (split; [done|lia]). done. }
  assert (wreach (loop i a (v_out s) s2)) as R3.
  { eapply (wreach_S s2 _ (WAWake i)); [done|]. unfold wperform. simpl. unfold ready. by rewrite set_same. }
  exists (loop i a (v_out s) s2). split; [done|].
  assert (v_tr (loop i a (v_out s) s2) = WGot i (v_out s) :: WReport (v_out s) :: WSuspended i :: WWrite i a a :: v_tr s) as T.
  { unfold loop. by rewrite decide_False by lia. }
  split; [done|]. split; [lia|]. rewrite T. unfold buffered. simpl. rewrite (b_out _ B). lia.
Qed.
Print Assumptions C138_refuted.

(** ** C139: which writes return when several coroutines write *)
(** If reports are timely and all bytes accepted go to the buffer, none loops for ever, and when the buffer is empty all that are suspended have been woken. *)
Theorem C139_all_return s : wreach s -> timely (v_tr s) -> all_queued (v_tr s) ->
  (∀ i, WSpin i ∉ v_tr s) ∧
  (¬ closed (v_tr s) -> buffered (v_tr s) = 0 -> ∀ i w, suspended i w (v_tr s) -> woken w).
Proof.
  intros R T Q.
  assert (∀ i, WSpin i ∉ v_tr s) as N.
  { intros i [l2 [l1 E]]%elem_of_list_split. destruct (ends_ok s l2 i _ l1 R E (or_introl eq_refl)) as (a & c & w & _ & _ & _ & [[? _]|(_ & _ & _ & _ & X)]); [done|]. apply X. split.
    - intros l3 n l4 E'. apply (T (l2 ++ WSpin i :: l3) n l4). by rewrite E, E', <- app_assoc.
    - intros j b q H. apply (Q j b q). rewrite E, elem_of_app, elem_of_cons. by right; right. }
  split; [done|]. intros O Z i w Su. destruct (reach_inv _ R) as [[_ [B I]]|(_ & _ & j & _ & tr & Tr & _)]; [|by destruct (N j); rewrite Tr; left].
  rewrite (base_buf _ B) in Z. specialize (I i). unfold co_inv in I. destruct (v_co s i).
  - by apply I in Su.
  - destruct I as (L & (w' & _ & _ & _ & X) & _). specialize (X T Q O). lia.
  - destruct I as (_ & _ & w' & Su' & W). by rewrite (suspended_inj _ _ _ _ Su Su').
  - by apply I in Su.
Qed.
(** A coroutine that was woken goes on as soon as its event is delivered; one that was not does not. *)
Theorem C139_woken_goes_on s i w : wreach s -> (∀ j, WSpin j ∉ v_tr s) -> suspended i w (v_tr s) ->
  (woken w -> ∃ s' e, wperform (WAWake i) s = Some s' ∧ v_tr s' = e :: v_tr s ∧ about i e = true) ∧ (¬ woken w -> wperform (WAWake i) s = None).
Proof.
  intros R N Su. destruct (reach_inv _ R) as [[H [B I]]|(_ & _ & j & _ & tr & Tr & _)]; [|by destruct (N j); rewrite Tr; left].
  specialize (I i). unfold co_inv in I. unfold wperform. rewrite H. destruct (v_co s i) as [|t c|t c n|].
  - by apply I in Su.
  - destruct I as (_ & _ & w' & Su' & W). rewrite <- (suspended_inj _ _ _ _ Su Su') in W. by split.
  - destruct I as (_ & _ & w' & Su' & W). rewrite <- (suspended_inj _ _ _ _ Su Su') in W. split; [|done]. intros _. destruct (loop_ev i t (c + n) s) as (e & E & X).
    eexists _, e. split; [done|]. split; [done|]. destruct X as [->|[[-> _]|[-> _]]]; simpl; by rewrite bool_decide_eq_true_2.
  - by apply I in Su.
Qed.
Print Assumptions C139_all_return. Print Assumptions C139_woken_goes_on.

(** A write() that loops for ever has missed a report: the buffer is empty, the device open, not all was confirmed. Nothing happens on the thread any more. *)
Theorem C139_hang s l2 i l1 : wreach s -> v_tr s = l2 ++ WSpin i :: l1 ->
  l2 = [] ∧ (∀ a, wperform a s = None) ∧ ¬ closed l1 ∧ buffered l1 = 0 ∧ ¬ (timely l1 ∧ all_queued l1).
Proof.
  intros R T. destruct (ends_ok s l2 i _ l1 R T (or_introl eq_refl)) as (a & c & w & C & L & _ & [[? _]|(_ & L' & O & Z & X)]); [done|].
  assert (l2 = [] ∧ v_hang s = true) as [-> H].
  { clear -R T. revert l2 T. induction R as [|s s' a R IH E]; intros l2 T; [by destruct l2|].
    destruct (v_hang s) eqn:H; [unfold wperform in E; by rewrite H in E|].
    assert (∀ l2, v_tr s ≠ l2 ++ WSpin i :: l1) as No by (intros l X; by destruct (IH l X)).
    assert (∀ e, v_tr s' = e :: v_tr s -> e ≠ WSpin i -> l2 = [] ∧ v_hang s' = true) as Old.
    { intros e T' N. rewrite T' in T. destruct l2 as [|x l2]; [by injection T as ->|]. injection T as _ T. by apply No in T. }
    assert (∀ k t c s0, (∀ l2, v_tr s0 ≠ l2 ++ WSpin i :: l1) -> v_tr (loop k t c s0) = l2 ++ WSpin i :: l1 -> l2 = [] ∧ v_hang (loop k t c s0) = true) as Lp.
    { intros k t c s0 N. unfold loop. repeat case_decide; try case_match; simpl; (destruct l2 as [|x l2]; [|intros X; injection X as _ X; by apply N in X]); intros X; try done; injection X as X; done. }
    unfold wperform in E. rewrite H in E. destruct a as [k a q|k|k|n| |].
    - destruct (v_co s k); try done. case_decide; [|done]. simplify_eq. apply Lp; [|done]. intros [|x l] X; [done|]. injection X as _ X. by apply No in X.
    - destruct (v_co s k); try done. simplify_eq. by apply Lp.
    - assert (v_tr s' = WDestroyed k :: v_tr s) as T' by (destruct (v_co s k); by simplify_eq). by apply (Old _ T').
    - case_decide; [|done]. simplify_eq. by apply (Old _ eq_refl).
    - destruct (v_open s); [|done]. simplify_eq. by apply (Old _ eq_refl).
    - destruct (v_open s); [|done]. simplify_eq. by apply (Old _ eq_refl). }
  split; [done|]. split; [|done]. intros b. unfold wperform. by rewrite H.
Qed.
Print Assumptions C139_hang.

(** ** Examples *)
Lemma wplay_reach l s : wreach s -> wreach (wplay l s).
Proof. revert s. induction l as [|a l IH]; intros s R; [done|]. simpl. destruct (wperform a s) as [s'|] eqn:E; [|done]. apply IH. by eapply wreach_S. Qed.
(** Two coroutines write 3 and 4 bytes; 5 bytes leave: the first returns 5, the second waits for more, and returns 7. *)
Definition ex_two : list wact := [WAWrite 1 3 3; WAWrite 2 4 4; WAReport 2; WAWake 1; WAWake 2; WAReport 5; WAWake 2; WAWake 1].
Example ex137 : v_tr (wplay ex_two writers0) =
  [WGot 1 7; WGot 2 7; WReport 5; WSuspended 2; WSuspended 1; WReport 2; WSuspended 2; WWrite 2 4 4; WSuspended 1; WWrite 1 3 3].
Proof. reflexivity. Qed.
(** The hypotheses of C139_all_return are met while both wait to be resumed. *)
Example ex139 : let s := wplay [WAWrite 1 3 3; WAWrite 2 4 4; WAReport 7] writers0 in
  wreach s ∧ timely (v_tr s) ∧ all_queued (v_tr s) ∧ ¬ closed (v_tr s) ∧ buffered (v_tr s) = 0 ∧ suspended 1 [WReport 7; WSuspended 2; WWrite 2 4 4] (v_tr s).
Proof.
  cbv zeta. split_and!; [apply wplay_reach, wreach_0| | | |done|].
  - intros l2 n l1 E. simpl in E. destruct l2 as [|x l2]; [|injection E as _ E; repeat (destruct l2 as [|? l2]; [discriminate|injection E as _ E]); by destruct l2].
    injection E as <- <-. intros i w (u & E & _). assert (∀ e, e ∈ w -> ∀ m, e ≠ WReport m ∧ e ≠ WClosing) as N.
    { intros e H m. assert (e ∈ [WSuspended 2; WWrite 2 4 4; WSuspended 1; WWrite 1 3 3]) as X by (rewrite E, elem_of_app; by left).
      rewrite !elem_of_cons, elem_of_nil in X. naive_solver. }
    intros [[m H]|H]; [destruct (N _ H m)|destruct (N _ H 0)]; done.
  - intros i a q H. simpl in H. rewrite !elem_of_cons, elem_of_nil in H. naive_solver.
  - intros [d H]. simpl in H. rewrite !elem_of_cons, elem_of_nil in H. naive_solver.
  - eexists. split; [reflexivity|]. intros e H. rewrite !elem_of_cons, elem_of_nil in H. naive_solver.
Qed.
(** The hypotheses of C138 are met while coroutine 1 waits. *)
Example ex138 : let s := wplay [WAWrite 1 3 3] writers0 in
  wreach s ∧ ¬ closed (v_tr s) ∧ (∀ j, WSpin j ∉ v_tr s) ∧ WDestroyed 2 ∉ v_tr s ∧ (∀ w, ¬ suspended 2 w (v_tr s)) ∧ 0 < 2 ≤ buffered (v_tr s).
Proof.
  cbv zeta. split_and!; [apply wplay_reach, wreach_0| | | | |simpl; lia|cbv; lia].
  - intros [d H]. simpl in H. rewrite !elem_of_cons, elem_of_nil in H. naive_solver.
  - intros j H. simpl in H. rewrite !elem_of_cons, elem_of_nil in H. naive_solver.
  - intros H. simpl in H. rewrite !elem_of_cons, elem_of_nil in H. naive_solver.
  - intros w (u & E & _). destruct w as [|? [|? [|]]]; simplify_eq; simpl in *; by simplify_eq.
Qed.
(** Two reports before coroutine 1 is resumed: the second is lost, and it loops for ever. *)
Example ex139_hang : v_tr (wplay [WAWrite 1 3 3; WAReport 1; WAReport 2; WAWake 1] writers0) = [WSpin 1; WReport 2; WReport 1; WSuspended 1; WWrite 1 3 3].
Proof. reflexivity. Qed.
