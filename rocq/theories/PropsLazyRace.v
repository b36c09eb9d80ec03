(** * C143: co_await of a LazyTask that ends on another thread *)
From stdpp Require Import prelude.
From Verif Require Import LazyRaceModel.

(** ** Vocabulary, about the trace of events (newest first) *)
(** The number of times the LazyTask was awaited before it had ended. *)
Fixpoint awaits (tr : list lrev) : nat := match tr with [] => 0 | LEAwait _ :: tr => S (awaits tr) | _ :: tr => awaits tr end.
Definition undefined (e : lrev) : Prop := match e with LERace | LEUseAfterFree | LEResumed _ => True | _ => False end.
Fixpoint freed (tr : list lrev) : nat := match tr with [] => 0 | LEFreed :: tr => S (freed tr) | _ :: tr => freed tr end.
Fixpoint got (i : nat) (tr : list lrev) : nat := match tr with [] => 0 | LEGot j false :: tr => (if decide (j = i) then 1 else 0) + got i tr | _ :: tr => got i tr end.

(** ** Invariant: how far the protocol is *)
Definition fin_of (i n : nat) : lphase :=
  match n with 0 | 1 | 2 | 3 => LNot | 4 => LRun | 5 => LCopying | 6 => LCopied [i] | 7 => LLoop [i] | 8 => LLoop [] | _ => LOver end.
Definition aw_of (n : nat) : laphase := match n with 1 => BChecked | 2 => BPushing | 3 => BPushed | 4 | 5 | 6 | 7 => BWait | _ => BNone end.
(** The trace without the events that are not of the protocol. *)
Definition of_protocol (e : lrev) : bool := match e with LEGot _ true | LEDropped | LEFreed => false | _ => true end.
Definition hist (i n : nat) : list lrev :=
  match n with
  | 0 => []
  | 1 | 2 => [LEAwait i]
  | 3 => [LESuspended i; LEAwait i]
  | 4 => [LEStarted i; LESuspended i; LEAwait i]
  | 5 | 6 | 7 => [LEReturned; LEStarted i; LESuspended i; LEAwait i]
  | 8 => [LEGot i false; LEReturned; LEStarted i; LESuspended i; LEAwait i]
  | _ => [LEOver; LEGot i false; LEReturned; LEStarted i; LESuspended i; LEAwait i]
  end.
Record inv (i n : nat) (s : lzst) : Prop := Inv {
  i_n : n ≤ 9;
  i_bad : z_bad s = false;
  i_fin : z_fin s = fin_of i n;
  i_list : z_list s = if decide (3 ≤ n) then [i] else [];
  i_aw j : z_aw s j = if decide (j = i) then aw_of n else BNone;
  i_mid : z_mid s = if decide (1 ≤ n ≤ 3) then [i] else [];
  i_push : z_push s = if decide (n = 2) then Some i else None;
  i_ref : z_ref s = (if decide (n = 9) then 0 else 1) + (if z_task s then 1 else 0);
  i_frame : z_frame s = negb (bool_decide (z_ref s = 0));
  i_hist : filter (λ e, of_protocol e = true) (z_tr s) = hist i n;
  i_dropped : LEDropped ∈ z_tr s <-> z_task s = false;
  i_freed : freed (z_tr s) = if decide (z_ref s = 0) then 1 else 0;
  i_here j : LEGot j true ∈ z_tr s -> 7 ≤ n }.
Lemma inv_0 : inv 0 0 lazyrace0.
Proof. constructor; simpl; intros; try done; try lia; try (by case_decide); try (by rewrite elem_of_nil); by apply not_elem_of_nil in H. Qed.

Lemma awaits_hist tr : awaits tr = awaits (filter (λ e, of_protocol e = true) tr).
Proof. induction tr as [|e tr IH]; [done|]. rewrite filter_cons. destruct e as [| | |? []| | | | | | |]; simpl; by rewrite ?IH. Qed.
Lemma here_cons e tr (n n' : nat) : (∀ j, LEGot j true ∈ tr -> 7 ≤ n) -> n ≤ n' -> (∀ j, e = LEGot j true -> 7 ≤ n') -> ∀ j, LEGot j true ∈ e :: tr -> 7 ≤ n'.
Proof. intros H L X j [<-|Y]%elem_of_cons; [by eapply X|]. apply H in Y. lia. Qed.
Lemma drop_cons e tr (b : bool) : (LEDropped ∈ tr <-> b = false) -> e ≠ LEDropped -> LEDropped ∈ e :: tr <-> b = false.
Proof. intros H N. rewrite elem_of_cons, H. split; [by intros [?|?]|by right]. Qed.
(** For the proofs: solves the fields of [inv] after a step. *)
Ltac aw_tac := intros k; unfold set_law; repeat match goal with H : ∀ j, _ j = (if decide _ then _ else _) |- _ => rewrite H end; repeat case_decide; simpl; congruence || done.
Ltac solve_inv := constructor; simpl in *;
  try lia; try done; try (by aw_tac);
  try (rewrite ?filter_cons; simpl; congruence);
  try (repeat (apply drop_cons; [|done]); done); try (split; [done|]; intros _; first [by left|by right; left]); try (rewrite filter_cons_False, filter_nil by (intros X; by apply X); done);
  try (eapply here_cons; [eapply here_cons; [eassumption|reflexivity|done]|lia|done]); try (eapply here_cons; [eassumption|lia|first [done|by intros; simplify_eq; lia]]);
  try (match goal with H : ∀ j, LEGot j true ∈ ?tr -> _ |- ∀ j, LEGot j true ∈ ?tr -> _ => intros k Hk; specialize (H k Hk); lia end).
Lemma step_inv i n a s s' : inv i n s -> awaits (z_tr s') ≤ 1 -> lzperform a s = Some s' -> ∃ i' n', inv i' n' s' ∧ (n = 0 ∨ i' = i) ∧ n ≤ n'.
Proof.
  intros I A E. destruct I. destruct s as [fin li aw mid push ref frame task bd tr]. simpl in *.
  unfold lzperform, ltouch, ldone, lderef, lbad in E. simpl in E. subst fin bd li mid push ref.
  assert (n ≠ 9 -> frame = true) as Fr by (intros; rewrite i_frame0, bool_decide_eq_false_2 by (rewrite decide_False by done; lia); done).
  destruct a as [j|j|j|j| | | | | |].
  - destruct task; [|done]. assert (frame = true) as -> by (rewrite i_frame0, bool_decide_eq_false_2 by lia; done). pose proof (i_aw0 j) as Aj. destruct (aw j) eqn:W; try done.
    assert (n = 0 ∨ 1 ≤ n) as [->|Z] by lia.
    { exists j, 1. split_and!; [|by left|lia]. simpl in *. simplify_eq; solve_inv. }
    assert (1 ≤ awaits tr) as A1. { rewrite awaits_hist, i_hist0. do 10 (destruct n as [|n]; [simpl; lia|]). lia. }
    exists i, n. do 10 (destruct n as [|n]; [simpl in *; first [lia|simplify_eq; simpl in *; lia|simplify_eq; split_and!; [solve_inv|by right|lia]]|]). lia.
  - rewrite i_aw0 in E. case_decide; [subst j|done]. do 10 (destruct n as [|n]; [simpl in *; first [done|rewrite Fr in E by done; simplify_eq; exists i, 2; split_and!; [solve_inv|by right|lia]]|]). lia.
  - rewrite i_aw0 in E. case_decide; [subst j|done]. do 10 (destruct n as [|n]; [simpl in *; first [done|rewrite Fr in E by done; simplify_eq; exists i, 3; split_and!; [solve_inv|by right|lia]]|]). lia.
  - rewrite i_aw0 in E. case_decide; [subst j|done]. do 10 (destruct n as [|n]; [simpl in *; first [done|rewrite Fr in E by done; simplify_eq; exists i, 4; split_and!; [solve_inv|by right|lia]]|]). lia.
  - do 10 (destruct n as [|n]; [simpl in *; first [done|rewrite Fr in E by done; simplify_eq; exists i, 5; split_and!; [solve_inv|by right|lia]]|]). lia.
  - do 10 (destruct n as [|n]; [simpl in *; first [done|rewrite Fr in E by done; simplify_eq; exists i, 6; split_and!; [solve_inv|by right|lia]]|]). lia.
  - do 10 (destruct n as [|n]; [simpl in *; first [done|rewrite Fr in E by done; simplify_eq; exists i, 7; split_and!; [solve_inv|by right|lia]]|]). lia.
  - do 10 (destruct n as [|n]; [simpl in *; first [done|rewrite Fr in E by done; simplify_eq; exists i, 8; split_and!; [solve_inv|by right|lia]]|]). lia.
  - do 10 (destruct n as [|n]; [simpl in *; first [done|rewrite Fr in E by done; simplify_eq; exists i, 9; split_and!; [destruct task; solve_inv|by right|lia]]|]). lia.
  - destruct task; [|done]. assert (frame = true) as -> by (rewrite i_frame0, bool_decide_eq_false_2 by lia; done).
    exists i, n. do 10 (destruct n as [|n]; [simpl in *; first [done|simplify_eq; split_and!; [solve_inv|by right|lia]]|]). lia.
Qed.

Lemma awaits_grow a s s' : lzperform a s = Some s' -> awaits (z_tr s) ≤ awaits (z_tr s').
Proof.
  unfold lzperform, ltouch, lderef, lbad. destruct (z_bad s); [done|]. destruct a; intros E; repeat (case_match; try discriminate); simplify_eq; simpl; lia.
Qed.
Lemma reach_inv s : lzreach s -> awaits (z_tr s) ≤ 1 -> ∃ i n, inv i n s.
Proof.
  induction 1 as [|s s' a R IH E]; intros A; [exists 0, 0; apply inv_0|].
  destruct IH as (i & n & I). { pose proof (awaits_grow _ _ _ E). lia. }
  destruct (step_inv _ _ _ _ _ I A E) as (i' & n' & I' & _). by exists i', n'.
Qed.
Lemma hist_in i n s e : inv i n s -> of_protocol e = true -> e ∈ z_tr s <-> e ∈ hist i n.
Proof. intros I P. rewrite <- (i_hist _ _ _ I), elem_of_list_filter. naive_solver. Qed.
Ltac in_hist I n :=
  let L := fresh in pose proof (i_n _ _ _ I) as L; assert (n = 0 ∨ n = 1 ∨ n = 2 ∨ n = 3 ∨ n = 4 ∨ n = 5 ∨ n = 6 ∨ n = 7 ∨ n = 8 ∨ n = 9) as L' by lia; clear L;
  destruct L' as [->|[->|[->|[->|[->|[->|[->|[->|[->| ->]]]]]]]]]; simpl in *.
Ltac mem_in H := repeat match type of H with _ ∈ [] => by apply not_elem_of_nil in H | _ ∈ _ :: _ => apply elem_of_cons in H as [H|H]; [try discriminate H; simplify_eq|] end.

Lemma await_self i n s j : inv i n s -> LEAwait j ∈ z_tr s -> j = i ∧ 1 ≤ n.
Proof. intros I H. apply (hist_in _ _ _ _ I) in H; [|done]. in_hist I n; mem_in H; split; done || lia. Qed.
Lemma returned_5 i n s : inv i n s -> LEReturned ∈ z_tr s -> 5 ≤ n.
Proof. intros I H. apply (hist_in _ _ _ _ I) in H; [|done]. in_hist I n; mem_in H; lia. Qed.
Lemma started_4 i n s j : inv i n s -> LEStarted j ∈ z_tr s -> 4 ≤ n.
Proof. intros I H. apply (hist_in _ _ _ _ I) in H; [|done]. in_hist I n; mem_in H; lia. Qed.
Lemma over_9 i n s : inv i n s -> LEOver ∈ z_tr s <-> n = 9.
Proof. intros I. rewrite (hist_in _ _ _ _ I) by done. split; [|intros ->; by left]. intros H. in_hist I n; mem_in H; lia. Qed.
Lemma frame_up i n s : inv i n s -> n ≠ 9 -> z_frame s = true.
Proof. intros I N. rewrite (i_frame _ _ _ I), bool_decide_eq_false_2; [done|]. rewrite (i_ref _ _ _ I), decide_False by done. lia. Qed.

(** ** C143: a LazyTask awaited by one coroutine at a time, that ends on any thread *)
(** Nothing is undefined. *)
Theorem C143_safe s e : lzreach s -> awaits (z_tr s) ≤ 1 -> undefined e -> e ∉ z_tr s.
Proof. intros R A U H. destruct (reach_inv _ R A) as (i & n & I). apply (hist_in _ _ _ _ I) in H; [|by destruct e]. in_hist I n; mem_in H; done. Qed.
(** The co_await starts the coroutine, without the help of any other thread. *)
Theorem C143_starts s i : lzreach s -> awaits (z_tr s) ≤ 1 -> LEAwait i ∈ z_tr s ->
  ∃ l, Forall (λ a, a = LAPush i ∨ a = LAPushed i ∨ a = LAStart i) l ∧ LEStarted i ∈ z_tr (lzplay l s).
Proof.
  intros R A W. destruct (reach_inv _ R A) as (k & n & I). destruct (await_self _ _ _ _ I W) as [-> N]. pose proof (i_n _ _ _ I) as N9.
  destruct (decide (4 ≤ n)) as [G|G].
  { exists []. split; [done|]. simpl. apply (hist_in _ _ _ _ I); [done|]. do 10 (destruct n as [|n]; [simpl; first [lia|repeat (first [by left|right])]|]). lia. }
  pose proof (frame_up _ _ _ I ltac:(lia)) as Fr. pose proof (i_aw _ _ _ I k) as Ak. rewrite decide_True in Ak by done.
  destruct s as [fin li aw mid push ref frame task bd tr]. destruct I. simpl in *. clear i_frame0. subst fin bd frame li push.
  exists (drop (n - 1) [LAPush k; LAPushed k; LAStart k]). split; [apply Forall_drop; by auto 10 using Forall_cons, Forall_nil|].
  assert (∀ p f, set_law k p f k = p) as Sk by (intros; unfold set_law; by rewrite decide_True).
  do 4 (destruct n as [|n]; [simpl in *; try lia; unfold lzperform, ltouch; simpl; rewrite ?Ak; simpl; rewrite ?Sk; simpl; rewrite ?Sk; simpl; by left|]). lia.
Qed.
(** Once its body has ended, the ending thread resumes the awaiting coroutine, without the help of any other thread, *)
Theorem C143_returns s i : lzreach s -> awaits (z_tr s) ≤ 1 -> LEAwait i ∈ z_tr s -> LEReturned ∈ z_tr s ->
  ∃ l, Forall (λ a, a = LACopied ∨ a = LADone ∨ a = LAResume) l ∧ LEGot i false ∈ z_tr (lzplay l s).
Proof.
  intros R A W Rt. destruct (reach_inv _ R A) as (k & n & I). destruct (await_self _ _ _ _ I W) as [-> _]. pose proof (i_n _ _ _ I) as N9.
  pose proof (returned_5 _ _ _ I Rt) as N5. destruct (decide (8 ≤ n)) as [G|G].
  { exists []. split; [done|]. simpl. apply (hist_in _ _ _ _ I); [done|]. do 10 (destruct n as [|n]; [simpl; first [lia|repeat (first [by left|right])]|]). lia. }
  pose proof (frame_up _ _ _ I ltac:(lia)) as Fr.
  destruct s as [fin li aw mid push ref frame task bd tr]. destruct I. simpl in *. clear i_frame0. subst fin bd frame li push.
  exists (drop (n - 5) [LACopied; LADone; LAResume]). split; [apply Forall_drop; by auto 10 using Forall_cons, Forall_nil|].
  do 8 (destruct n as [|n]; [simpl in *; try lia; by left|]). lia.
Qed.
(** and before it lets go of the coroutine: none is lost. *)
Theorem C143_over s i : lzreach s -> awaits (z_tr s) ≤ 1 -> LEAwait i ∈ z_tr s -> LEOver ∈ z_tr s -> LEGot i false ∈ z_tr s.
Proof.
  intros R A W O. destruct (reach_inv _ R A) as (k & n & I). destruct (await_self _ _ _ _ I W) as [-> _]. apply (over_9 _ _ _ I) in O as ->.
  apply (hist_in _ _ _ _ I); [done|]. right. by left.
Qed.
(** It returns once, after the end of the body; from then on, a co_await returns at once. *)
Theorem C143_got s : lzreach s -> awaits (z_tr s) ≤ 1 ->
  (∀ i, got i (z_tr s) ≤ 1) ∧
  (∀ i b v t, z_tr s = v ++ LEGot i b :: t -> LEReturned ∈ t ∧ (b = false -> LESuspended i ∈ t)) ∧
  (∀ i k, LEGot k false ∈ z_tr s -> LEDropped ∉ z_tr s -> ∃ s', lzperform (LAAwait i) s = Some s' ∧ z_tr s' = LEGot i true :: z_tr s).
Proof.
  intros R A. split_and!.
  - intros j. destruct (reach_inv _ R A) as (i & n & I).
    assert (∀ l, got j l = got j (filter (λ e, of_protocol e = true) l)) as ->.
    { induction l as [|e l IH]; [done|]. rewrite filter_cons. destruct e as [| | |? []| | | | | | |]; simpl; by rewrite ?IH. }
    rewrite (i_hist _ _ _ I). do 10 (destruct n as [|n]; [simpl; repeat case_decide; simpl; lia|]). pose proof (i_n _ _ _ I). lia.
  - intros i b v t T. destruct b.
    + split; [|done]. revert v T. induction R as [|s s' a R IH E]; intros v T; [by destruct v|].
      pose proof (awaits_grow _ _ _ E) as G. destruct (reach_inv _ R ltac:(lia)) as (k & n & I).
      assert (∃ w, z_tr s' = w ++ z_tr s ∧ (LEGot i true ∈ w -> w = [LEGot i true] ∧ ldone s = true)) as (w & Ew & Hw).
      { clear IH T. unfold lzperform, ltouch, lderef, lbad in E. destruct (z_bad s); [done|]. destruct a; repeat (case_match; try discriminate); simplify_eq; simpl;
          first [by exists []; split; [|intros X; by apply not_elem_of_nil in X]
                |eexists [_]; split; [reflexivity|]; intros X; apply elem_of_list_singleton in X; simplify_eq; done
                |eexists [_;_]; split; [reflexivity|]; intros X; mem_in X]. }
      rewrite Ew in T. apply app_eq_inv in T as [(k' & -> & T)|(k' & -> & T)]; [|by eapply (IH ltac:(lia) k')].
      destruct k' as [|x k']; [simpl in T; by apply (IH ltac:(lia) [])|]. injection T as <- ->.
      destruct Hw as [Q D]; [rewrite elem_of_app; right; by left|]. destruct v as [|? [|]]; simplify_eq/=.
      apply (hist_in _ _ _ _ I); [done|]. unfold ldone in D. rewrite (i_fin _ _ _ I) in D. in_hist I n; try done; repeat (first [by left|right]).
    + destruct (reach_inv _ R A) as (k & n & I). pose proof (i_hist _ _ _ I) as H. rewrite T, filter_app, filter_cons in H. simpl in H.
      assert (∃ u, filter (λ e, of_protocol e = true) t = LEReturned :: LEStarted k :: LESuspended k :: u ∧ i = k) as (u & Ft & ->).
      { assert (∀ (v : list lrev) e f x y, v ++ LEGot i false :: x = e :: LEGot f false :: y -> (∀ j b, e ≠ LEGot j b) -> (∀ j b, LEGot j b ∉ y) -> i = f ∧ x = y) as Two.
        { intros [|? [|? v']] e f x y Q Ne Ny; simplify_eq/=; [by edestruct Ne|done|]. destruct (Ny i false). rewrite elem_of_app. right. by left. }
        assert (∀ (v : list lrev) f x y, v ++ LEGot i false :: x = LEGot f false :: y -> (∀ j b, LEGot j b ∉ y) -> i = f ∧ x = y) as One.
        { intros [|? v'] f x y Q Ny; simplify_eq/=; [done|]. destruct (Ny i false). rewrite elem_of_app. right. by left. }
        assert (∀ (v : list lrev) x y, v ++ LEGot i false :: x = y -> (∀ j b, LEGot j b ∉ y) -> False) as Zero.
        { intros v' x y <- Ny. apply (Ny i false). rewrite elem_of_app. right. by left. }
        in_hist I n; try (exfalso; eapply Zero; [exact H|]; intros j b X; by mem_in X).
        - apply One in H as [-> ->]; [by eexists|]. intros j b X. by mem_in X.
        - apply Two in H as [-> ->]; [by eexists|done|]. intros j b X. by mem_in X. }
      assert (∀ e, e ∈ filter (λ e, of_protocol e = true) t -> e ∈ t) as Sub by (intros e X; by apply elem_of_list_filter in X as [_ X]).
      split; [|intros _]; apply Sub; rewrite Ft; [by left|right; right; by left].
  - intros i k0 O D. destruct (reach_inv _ R A) as (k & n & I).
    assert (n = 8 ∨ n = 9) as Nn. { apply (hist_in _ _ _ _ I) in O; [|done]. in_hist I n; mem_in O; lia. }
    assert (z_task s = true) as Tk. { destruct (z_task s) eqn:X; [done|]. destruct D. by apply (i_dropped _ _ _ I). }
    assert (z_frame s = true) as Fr. { rewrite (i_frame _ _ _ I), bool_decide_eq_false_2; [done|]. rewrite (i_ref _ _ _ I), Tk. lia. }
    assert (z_aw s i = BNone) as Aw. { rewrite (i_aw _ _ _ I). case_decide; [|done]. by destruct Nn as [-> | ->]. }
    pose proof (i_bad _ _ _ I) as B. pose proof (i_fin _ _ _ I) as F. unfold lzperform, ltouch, ldone. rewrite B, Tk, Aw, Fr, F. destruct Nn as [-> | ->]; simpl; by eexists.
Qed.
(** The frame is destroyed once, when the coroutine has ended and the LazyTask is destroyed, whatever threads do that. *)
Theorem C143_frame s : lzreach s -> awaits (z_tr s) ≤ 1 -> freed (z_tr s) ≤ 1 ∧ (freed (z_tr s) = 1 <-> LEOver ∈ z_tr s ∧ LEDropped ∈ z_tr s).
Proof.
  intros R A. destruct (reach_inv _ R A) as (k & n & I). rewrite (over_9 _ _ _ I), (i_dropped _ _ _ I), (i_freed _ _ _ I), (i_ref _ _ _ I).
  destruct (z_task s); repeat case_decide; simpl in *; (split; [lia|]); naive_solver lia.
Qed.
(** A second coroutine that awaits it while its body runs resumes it once more: undefined, in every history (C15 on several threads). *)
Theorem C143_second s i j : lzreach s -> awaits (z_tr s) ≤ 1 -> LEStarted i ∈ z_tr s -> LEReturned ∉ z_tr s -> LEDropped ∉ z_tr s -> j ≠ i ->
  ∃ s', lzreach s' ∧ z_tr s' = LEResumed j :: LESuspended j :: LEAwait j :: z_tr s.
Proof.
  intros R A St Rt D N. destruct (reach_inv _ R A) as (k & n & I).
  assert (n = 4 ∧ k = i) as [-> ->].
  { apply (hist_in _ _ _ _ I) in St; [|done]. rewrite (hist_in _ _ _ _ I) in Rt by done. in_hist I n; mem_in St; try done; exfalso; apply Rt; repeat (first [by left|right]). }
  assert (z_task s = true) as Tk. { destruct (z_task s) eqn:X; [done|]. destruct D. by apply (i_dropped _ _ _ I). }
  pose proof (frame_up _ _ _ I ltac:(lia)) as Fr. pose proof (i_aw _ _ _ I j) as Aj. rewrite decide_False in Aj by done.
  exists (lzplay [LAAwait j; LAPush j; LAPushed j; LAStart j] s). split.
  - assert (∀ l s, lzreach s -> lzreach (lzplay l s)) as P; [|by apply P]. clear. induction l as [|a l IH]; [done|]. intros s R. simpl. destruct (lzperform a s) eqn:E; [|done]. apply IH. by eapply lzreach_S.
  - destruct s as [fin li aw mid push ref frame task bd tr]. destruct I. simpl in *. clear i_frame0. subst.
    assert (∀ p f, set_law j p f j = p) as Sk by (intros; unfold set_law; by rewrite decide_True).
    unfold lzperform, ltouch, ldone, lbad. simpl. rewrite Aj. simpl. rewrite ?Sk. simpl. rewrite ?Sk. simpl. by rewrite ?Sk.
Qed.

(** ** Non-vacuity *)
(** The LazyTask is destroyed while the body runs on another thread; a second co_await after the end returns at once. *)
Example ex_lazy : z_tr (lzplay [LAAwait 1; LAPush 1; LAPushed 1; LAStart 1; LADrop; LAReturn; LACopied; LADone; LAResume; LADeref] lazyrace0) =
  [LEFreed; LEOver; LEGot 1 false; LEReturned; LEDropped; LEStarted 1; LESuspended 1; LEAwait 1].
Proof. reflexivity. Qed.
Example ex_lazy2 : z_tr (lzplay [LAAwait 1; LAPush 1; LAPushed 1; LAStart 1; LAReturn; LACopied; LADone; LAAwait 2; LAResume; LAAwait 1; LADeref; LADrop] lazyrace0) =
  [LEFreed; LEDropped; LEOver; LEGot 1 true; LEGot 1 false; LEGot 2 true; LEReturned; LEStarted 1; LESuspended 1; LEAwait 1].
Proof. reflexivity. Qed.

Print Assumptions C143_safe. Print Assumptions C143_starts. Print Assumptions C143_returns. Print Assumptions C143_over.
Print Assumptions C143_got. Print Assumptions C143_frame. Print Assumptions C143_second.
