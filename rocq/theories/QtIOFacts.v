(** * Facts about the QCoroIODevice functions. *)
From stdpp Require Import list.
From Coq Require Import ZArith.
From Verif Require Import QtModel QtSpec QtInv QtAwait QtReach QtWrap QtTrace QtBehave QtCall QtEnds QtCall2 QtObj QtIO QtIOSpec.

Section facts.
Context {O A : Type}.
Notation wstate := (@wstate qobj sig arg O A).
Notation wprog := (@wprog qobj sig arg O).
Notation tev := (@tev qobj sig arg O A).
#[local] Arguments relays : simpl never.
#[local] Arguments last : simpl nomatch.

Lemma relays_in {D S P} (h : @helper D S P) (d : D) (l : list (@QtModel.tev D S P O A)) b p : (b, p) ∈ relays h d l ->
  ∃ sg a o l1 l2, l = l1 ++ TEmit sg a :: l2 ∧ relay h sg a (dev_after d l2) = Some (b, p, o).
Proof.
  induction l as [|e l IH]; [by intros ?%elem_of_nil|]. rewrite relays_cons. intros [Hin|Hin]%elem_of_app.
  - destruct (IH Hin) as (sg & a & o & l1 & l2 & -> & ?). exists sg, a, o, (e :: l1), l2. done.
  - destruct e as [|sg a| | | | | | | | |]; try (by apply elem_of_nil in Hin). destruct (relay h sg a (dev_after d l)) as [[[b' p'] o]|] eqn:Er; [|by apply elem_of_nil in Hin].
    apply elem_of_list_singleton in Hin. simplify_eq. exists sg, a, o, [], l. done.
Qed.
Lemma relays_none {D S P} (h : @helper D S P) (d : D) (l : list (@QtModel.tev D S P O A)) : relays h d l = [] -> ∀ sg a l1 l2, l = l1 ++ TEmit sg a :: l2 -> relay h sg a (dev_after d l2) = None.
Proof.
  induction l as [|e l IH]; intros Hr sg a l1 l2 E; [by destruct l1|]. rewrite relays_cons in Hr. apply app_eq_nil in Hr as [Hr1 Hr2]. destruct l1 as [|e' l1]; cbn in E.
  - injection E as -> ->. by destruct (relay h sg a (dev_after d l2)) as [[[??]?]|].
  - injection E as -> ->. by eapply IH.
Qed.
Lemma relays_head {D S P} (h : @helper D S P) (d : D) (l : list (@QtModel.tev D S P O A)) p : head (map snd (relays h d l)) = Some p ->
  ∃ sg a b o l1 l2, l = l1 ++ TEmit sg a :: l2 ∧ relay h sg a (dev_after d l2) = Some (b, p, o) ∧ relays h d l2 = [].
Proof.
  induction l as [|e l IH]; [done|]. rewrite relays_cons. destruct (relays h d l) as [|x r] eqn:Er.
  - cbn. destruct e as [|sg a| | | | | | | | |]; try done. destruct (relay h sg a (dev_after d l)) as [[[b' p'] o]|] eqn:E; [|done]. cbn. intros [= ->].
    exists sg, a, b', o, [], l. done.
  - cbn. intros Hp. destruct (IH Hp) as (sg & a & b & o & l1 & l2 & -> & ?). exists sg, a, b, o, (e :: l1), l2. done.
Qed.

Lemma ready_relay c sg a d : (∃ x, relay (ready_helper c) sg a d = Some x) <-> wakes_read c sg a.
Proof.
  split.
  - intros [x Hx]. destruct sg; cbn in *; try done; destruct c; try done; [left|right].
    + split; [done|]. destruct a as [| | |[]| |]; cbn in Hx; try done; auto.
    + split; [done|]. intros ->. done.
  - intros H. destruct sg; cbn in *; try done; try (eexists; done); try (subst c; eexists; done).
    destruct H as [[-> [-> | ->]]|[-> Ha]]; cbn; [eexists; done|eexists; done|]. destruct a as [| | |[]| |]; cbn; try done; eexists; done.
Qed.
Lemma written_relay c sg a d v : (∃ b o, relay (written_helper c) sg a d = Some (b, v, o)) <-> wakes_write c sg a v.
Proof.
  split.
  - intros (b & o & Hx). destruct sg; cbn in *; try done; try (by simplify_eq); destruct c; try done.
    + destruct (is_closing a) eqn:E; [|done]. simplify_eq. split; [done|]. left. split; [done|]. destruct a as [| | |[]| |]; cbn in E; try done; auto.
    + destruct (is_connected a) eqn:E; [done|]. simplify_eq. split; [done|]. right. split; [done|]. intros ->. done.
    + by simplify_eq.
    + by simplify_eq.
  - intros H. destruct sg; cbn in *; try done; try (subst v; eexists _, _; done); try (destruct H as [-> ->]; eexists _, _; done).
    destruct H as [-> [[-> [-> | ->]]|[-> Ha]]]; cbn; [eexists _, _; done|eexists _, _; done|]. destruct a as [| | |[]| |]; cbn; try done; eexists _, _; done.
Qed.
Lemma ready_direct c : c ≠ NetworkReply -> direct (ready_helper c).
Proof. intros Hc sg q d p o. destruct sg, c; cbn; try done; by destruct (_ : bool). Qed.
Lemma written_direct c : c ≠ NetworkReply -> direct (written_helper c).
Proof. intros Hc sg q d p o. destruct sg, c; cbn; try done; by destruct (_ : bool). Qed.

Lemma ready_calm c : calm (ready_helper c).
Proof. intros sg p d b q d'. destruct sg, c; cbn; try done; by destruct (_ : bool). Qed.
Lemma written_calm c : calm (written_helper c).
Proof. intros sg p d b q d'. destruct sg, c; cbn; try done; by destruct (_ : bool). Qed.
Lemma cls_dec (c : cls) : c = NetworkReply ∨ c ≠ NetworkReply.
Proof. destruct c; auto. Qed.

Lemma ended_ready c d to (l : list tev) v : helper_wait (ready_helper c) d to l (Some v) ->
  ∃ lw sg a, l = TResume (Some v) :: lw ++ [TSusp FromHelper to] ∧ quiet lw ∧ ended_by c (wakes_read c) lw sg a.
Proof.
  intros (lw & -> & Hq & [b Hin] & Hdir). exists lw. destruct (cls_dec c) as [Hc|Hc].
  - destruct (relays_in _ _ _ _ _ Hin) as (sg & a & o & l1 & l2 & E & Hr). exists sg, a. split; [done|]. split; [done|]. exists l1, l2. split; [done|].
    split; [apply (ready_relay c sg a (dev_after d l2)); eauto|done].
  - destruct (relays_head _ _ _ _ (Hdir (ready_direct c Hc))) as (sg & a & b' & o & l1 & l2 & E & Hr & Hn). exists sg, a. split; [done|]. split; [done|]. exists l1, l2. split; [done|].
    split; [apply (ready_relay c sg a (dev_after d l2)); eauto|]. intros _ sg' a' (x & y & Hxy)%elem_of_list_split Hw.
    apply (ready_relay c sg' a' (dev_after d y)) in Hw as [z Hz]. rewrite (relays_none _ _ _ Hn sg' a' x y Hxy) in Hz. done.
Qed.
Lemma ended_written c d to (l : list tev) v : helper_wait (written_helper c) d to l (Some v) ->
  ∃ lw sg a, l = TResume (Some v) :: lw ++ [TSusp FromHelper to] ∧ quiet lw ∧ ended_by c (λ sg a, ∃ v', wakes_write c sg a v') lw sg a ∧ wakes_write c sg a v.
Proof.
  intros (lw & -> & Hq & [b Hin] & Hdir). exists lw. destruct (cls_dec c) as [Hc|Hc].
  - destruct (relays_in _ _ _ _ _ Hin) as (sg & a & o & l1 & l2 & E & Hr). exists sg, a. split; [done|]. split; [done|].
    assert (wakes_write c sg a v) by (apply (written_relay c sg a (dev_after d l2)); eauto). split; [|done]. exists l1, l2. split; [done|]. split; [by exists v|done].
  - destruct (relays_head _ _ _ _ (Hdir (written_direct c Hc))) as (sg & a & b' & o & l1 & l2 & E & Hr & Hn). exists sg, a. split; [done|]. split; [done|].
    assert (wakes_write c sg a v) by (apply (written_relay c sg a (dev_after d l2)); eauto). split; [|done]. exists l1, l2. split; [done|]. split; [by exists v|]. intros _ sg' a' (x & y & Hxy)%elem_of_list_split [v' Hw].
    apply (written_relay c sg' a' (dev_after d y)) in Hw as (z & z' & Hz). rewrite (relays_none _ _ _ Hn sg' a' x y Hxy) in Hz. done.
Qed.
Lemma timed_out h d to (l : list tev) : helper_wait h d to l None ->
  ∃ n lw, l = TResume None :: (TExpire :: lw) ++ [TSusp FromHelper to] ∧ quiet lw ∧ to = Some n ∧ n ≤ elapsed lw.
Proof.
  intros (lw & -> & Hq & n & l' & -> & -> & Hn). exists n, l'. split; [done|]. split; [|done]. intros e He. apply Hq. by right.
Qed.

(** ** waitForReadyRead *)
Lemma cspec_ready_impl denv c to s0 U (Q : option arg -> list tev -> wstate -> Prop) : walive s0 = true -> whelp s0 = None ->
  (is_socket c -> o_state (wdev s0) ≠ SConnected -> ∀ co, Q (Some (ABool false)) [] (set_co co s0)) ->
  (c = NetworkReply -> o_finished (wdev s0) = true -> ∀ co, Q (Some (ABool true)) [] (set_co co s0)) ->
  (∀ v l s2, helper_wait (ready_helper c) (wdev s0) to l v -> kept s0 s2 l -> behaves denv (wdev s0) l -> Q v l s2) ->
  cspec denv s0 (λ k : option arg -> wprog A, ready_impl c to k) U Q.
Proof.
  intros Ha Hh H1 H2 H3. destruct c; cbn -[qCoro_helper].
  - apply cspec_helper_wait; try done. intros v l s2 Hw Hk Hb. apply H3; [done|done|]. apply (Hb ltac:(apply ready_calm)).
  - apply (cspec_get denv s0 (λ d k, if sconnected d then qCoro_helper (ready_helper AbstractSocket) to k else k (Some (ABool false)))); [done|].
    unfold sconnected. destruct (o_state (wdev s0)) eqn:E; try (apply (cspec_ret denv s0 (Some (ABool false))); intros co; apply H1; [by left|congruence]).
    apply cspec_helper_wait; try done. intros v l s2 Hw Hk Hb. apply H3; [done|done|]. apply (Hb ltac:(apply ready_calm)).
  - apply (cspec_get denv s0 (λ d k, if sconnected d then qCoro_helper (ready_helper LocalSocket) to k else k (Some (ABool false)))); [done|].
    unfold sconnected. destruct (o_state (wdev s0)) eqn:E; try (apply (cspec_ret denv s0 (Some (ABool false))); intros co; apply H1; [by right|congruence]).
    apply cspec_helper_wait; try done. intros v l s2 Hw Hk Hb. apply H3; [done|done|]. apply (Hb ltac:(apply ready_calm)).
  - apply (cspec_get denv s0 (λ d k, if o_finished d then k (Some (ABool true)) else qCoro_helper (ready_helper NetworkReply) to k)); [done|].
    destruct (o_finished (wdev s0)) eqn:E; [apply (cspec_ret denv s0 (Some (ABool true))); intros co; by apply H2|]. apply cspec_helper_wait; try done. intros v l s2 Hw Hk Hb. apply H3; [done|done|]. apply (Hb ltac:(apply ready_calm)).
Qed.

Lemma cspec_waitForReadyRead denv c to s0 U : walive s0 = true -> whelp s0 = None ->
  cspec denv s0 (λ k : bool -> wprog A, waitForReadyRead c to k) U (λ b l s, ready_read c (wdev s0) to b l ∧ kept s0 s l ∧ behaves denv (wdev s0) l).
Proof.
  intros Ha Hh. unfold waitForReadyRead.
  apply (cspec_get denv s0 (λ d k, if negb (o_readable d) then k false else if avail d then k true else ready_impl c to (λ r, k (has_value r)))); [done|].
  destruct (o_readable (wdev s0)) eqn:Er; cbn [negb]; cycle 1.
  { apply (cspec_ret denv s0 false). intros co. split; [by constructor|split; [apply kept_refl|apply behaves_nil]]. }
  unfold avail. destruct (o_data (wdev s0)) as [|x xs] eqn:Ed; cycle 1.
  { apply (cspec_ret denv s0 true). intros co. split; [apply rr_data; [done|by rewrite Ed]|split; [apply kept_refl|apply behaves_nil]]. }
  apply (cspec_bind denv s0 (λ k, ready_impl c to k) (λ r k, k (has_value r)) U (λ v l s, ready_read c (wdev s0) to (has_value v) l ∧ kept s0 s l ∧ behaves denv (wdev s0) l)).
  - apply cspec_ready_impl; try done.
    + intros Hs Hc co. split; [by apply rr_socket|split; [apply kept_refl|apply behaves_nil]].
    + intros Hs Hc co. split; [by apply rr_reply|split; [apply kept_refl|apply behaves_nil]].
    + intros [v|] l s2 Hw Hk Hb; (split; [|done]).
      * destruct (ended_ready _ _ _ _ _ Hw) as (lw & sg & a & -> & Hq & He). by eapply rr_signal.
      * destruct (timed_out _ _ _ _ Hw) as (n & lw & -> & Hq & Hto & Hn). by eapply rr_timeout.
  - intros v l s2 Hg (HQ & Hk & Hb) Hin. apply (cspec_ret denv s2 (has_value v)). intros co. cbn. split; [done|]. split; [|done]. by destruct Hk.
Qed.

(** ** Reading *)
Lemma upto_newline_le l : upto_newline l ≤ length l.
Proof. induction l as [|b l IH]; cbn; [done|]. destruct (b =? newline); cbn; lia. Qed.
Lemma upto_newline_first l b1 b2 : take (upto_newline l) l = b1 ++ newline :: b2 -> b2 = [].
Proof.
  revert b1. induction l as [|b l IH]; intros b1; cbn; [by destruct b1|]. destruct (b =? newline) eqn:E.
  - destruct b1 as [|x b1]; cbn; [by intros [= _ <-]|]. intros [= _ H]. by destruct b1.
  - cbn. destruct b1 as [|x b1]; cbn; intros [= H1 H2]; [subst b; done|]. by eapply IH.
Qed.
Lemma upto_newline_last l : drop (upto_newline l) l = [] ∨ last (take (upto_newline l) l) = Some newline.
Proof.
  induction l as [|b l IH]; cbn; [by left|]. destruct (b =? newline) eqn:E.
  - right. apply Nat.eqb_eq in E. by subst.
  - rewrite skipn_cons, firstn_cons. destruct IH as [->|IH]; [by left|right]. destruct (take (upto_newline l) l) as [|y ys]; done.
Qed.
Lemma take_min_sub {X} n m (l : list X) : take (n `min` m) l = take n (take m l).
Proof. by rewrite take_take. Qed.
Lemma reads_rlen r x : reads r x (take (rlen r x) x) (drop (rlen r x) x).
Proof.
  split; [by rewrite take_drop|]. destruct r as [|n|n]; cbn.
  - rewrite drop_ge; [done|lia].
  - rewrite take_length. lia.
  - pose proof (upto_newline_le x) as Hle. assert (Hr : rlen (RLine n) x = if decide (n = 0) then upto_newline x else n `min` upto_newline x) by (destruct n; done).
    cbn in Hr. rewrite Hr. destruct (decide (n = 0)) as [->|Hn].
    + split; [apply upto_newline_first|]. split; [done|]. destruct (upto_newline_last x) as [?|?]; auto.
    + split; [|split].
      * intros b1 b2. rewrite take_min_sub. intros E.
        pose proof (take_drop n (take (upto_newline x) x)) as Ht. rewrite E, <- app_assoc in Ht. cbn in Ht. symmetry in Ht. apply upto_newline_first in Ht. by apply app_eq_nil in Ht as [? _].
      * intros _. rewrite take_length. lia.
      * destruct (decide (upto_newline x ≤ n)) as [Hx|Hx].
        -- rewrite Nat.min_r by done. destruct (upto_newline_last x) as [?|?]; auto.
        -- right. right. split; [done|]. rewrite take_length. lia.
Qed.

Lemma cspec_dev_read denv r s0 (U : wub -> list tev -> Prop) (Q : list byte -> list tev -> wstate -> Prop) :
  (walive s0 = true -> ∀ b y, reads r (o_data (wdev s0)) b y -> ∀ co, let d' := set_data y (wdev s0) in Q b [TDev d'] (set_co co (wlog (TDev d') (set_dev d' s0)))) ->
  (walive s0 = false -> U WDead []) -> cspec denv s0 (λ k : list byte -> wprog A, dev_read r k) U Q.
Proof.
  intros HQ HU. unfold dev_read. destruct (walive s0) eqn:Ea.
  - apply (cspec_call0 denv s0 _ (λ d k, k (take (rlen r (o_data d)) (o_data d)))); [done|done|]. cbn [fst].
    apply (cspec_ret denv _ (take (rlen r (o_data (wdev s0))) (o_data (wdev s0)))). intros co. apply (HQ eq_refl _ _ (reads_rlen r _) co).
  - apply cspec_call_dead; auto.
Qed.

Lemma arrived_after denv d (l : list tev) : appends denv -> behaves denv d l -> o_data (dev_after d l) = o_data d ++ arrived d l.
Proof.
  intros Ha. induction l as [|e l IH]; intros Hb; [cbn; by rewrite app_nil_r|].
  assert (IH' : o_data (dev_after d l) = o_data d ++ arrived d l) by (apply IH; by apply (behaves_sub _ _ _ [e])).
  destruct e; try done. cbn. destruct (Hb [] d0 l eq_refl) as [ems He]. destruct (Ha _ _ _ He) as [x Hx]. rewrite Hx, drop_app, app_assoc, <- IH'. done.
Qed.

Lemma arrived_app d (l l' : list tev) : arrived d (l' ++ l) = arrived d l ++ arrived (dev_after d l) l'.
Proof.
  induction l' as [|e l' IH]; cbn; [by rewrite app_nil_r|]. destruct e; try done. rewrite IH, <- app_assoc. f_equal. f_equal. by rewrite dev_after_app.
Qed.

Lemma cspec_read denv c r to s0 : walive s0 = true -> whelp s0 = None ->
  cspec denv s0 (λ k : list byte -> wprog A, read c r to k) (λ u l, u = WDead ∧ TDestroy ∈ l)
    (λ b l s, read_result c r (wdev s0) to b l (wdev s) ∧ kept s0 s l ∧ (appends denv -> o_data (wdev s0) ++ arrived (wdev s0) l = b ++ o_data (wdev s))).
Proof.
  intros Ha Hh. unfold read.
  apply (cspec_bind denv s0 (λ k, waitForReadyRead c to k) (λ b k, if b then dev_read r k else k []) _ (λ b l s, ready_read c (wdev s0) to b l ∧ kept s0 s l ∧ behaves denv (wdev s0) l)).
  - by apply cspec_waitForReadyRead.
  - intros [|] l s2 Hg (Hr & Hk & Hb) Hin.
    + apply cspec_dev_read.
      * intros Ha2 b y Hrd co d'. cbn. split; [|split].
        -- unfold d' in *. rewrite (ke_dev _ _ _ Hk) in Hrd |- *. by apply (re_bytes c r (wdev s0) to l b y).
        -- destruct Hk. split; try done; cbn.
           ++ intros Hn. apply ke_alive. intros ?. apply Hn. by right.
           ++ intros [?|?]%elem_of_cons; [done|auto].
        -- intros Hap. rewrite (ke_dev _ _ _ Hk) in Hrd. destruct Hrd as [Hd _]. rewrite (drop_ge y) by (rewrite Hd, app_length; lia).
           rewrite app_nil_r, <- Hd. symmetry. by apply (arrived_after denv).
      * intros Hd. split; [done|]. cbn. by eapply dead_destroyed; [apply Hk| |].
    + apply (cspec_ret denv s2 []). intros co. cbn. split; [|split; [by destruct Hk|]].
      * rewrite (ke_dev _ _ _ Hk). by constructor.
      * intros Hap. rewrite (ke_dev _ _ _ Hk). symmetry. by apply (arrived_after denv).
Qed.

Lemma cspec_read_dead denv c r to s0 (U : wub -> list tev -> Prop) Q : walive s0 = false -> U WDead [] -> cspec denv s0 (λ k : list byte -> wprog A, read c r to k) U Q.
Proof. intros Ha HU. unfold read, waitForReadyRead. by apply (cspec_get_dead denv s0 (λ d k, if negb (o_readable d) then k [] else if avail d then dev_read r k else ready_impl c to (λ b, if has_value b then dev_read r k else k []))). Qed.

(** Several reads in turn. *)
Lemma cspec_read_each denv c rs : ∀ s0 acc, whelp s0 = None ->
  cspec denv s0 (λ k : list (list byte) -> wprog A, read_each c rs acc k) (λ u l, u = WDead ∧ (walive s0 = true -> TDestroy ∈ l))
    (λ bs l s, ∃ bs', bs = acc ++ bs' ∧ length bs' = length rs ∧ kept s0 s l ∧ (appends denv -> o_data (wdev s0) ++ arrived (wdev s0) l = concat bs' ++ o_data (wdev s))).
Proof.
  induction rs as [|[r to] rs IH]; intros s0 acc Hh; cbn [read_each].
  - apply (cspec_ret denv s0 acc). intros co. exists []. split; [by rewrite app_nil_r|]. split; [done|]. split; [apply kept_refl|]. intros _. cbn. by rewrite app_nil_r.
  - destruct (walive s0) eqn:Ea; [|by apply (cspec_bind denv s0 (λ k, read c r to k) (λ b k, read_each c rs (acc ++ [b]) k) _ (λ _ _ _, False)); [apply cspec_read_dead|]].
    apply (cspec_bind denv s0 (λ k, read c r to k) (λ b k, read_each c rs (acc ++ [b]) k) _
      (λ b l s, read_result c r (wdev s0) to b l (wdev s) ∧ kept s0 s l ∧ (appends denv -> o_data (wdev s0) ++ arrived (wdev s0) l = b ++ o_data (wdev s)))).
    + eapply cspec_mono; [by apply cspec_read|..]; [|done]. by intros u l [? ?].
    + intros b l s2 Hg (_ & Hk & Hs) Hin. eapply cspec_mono; [apply IH; by apply Hk|..]; cbn beta.
      * intros u l' [-> Hd]. split; [done|]. intros _. apply elem_of_app. destruct (walive s2) eqn:E2; [left; auto|right]. by eapply dead_destroyed; [apply Hk| |].
      * intros bs l' s3 Hg3 (bs' & -> & Hlen & Hk3 & Hs3). exists (b :: bs'). split; [by rewrite <- app_assoc|]. split; [cbn; lia|]. split.
        -- eapply kept_trans; [done|done|]. intros Hd. pose proof (ke_dead _ _ _ Hk Hd) as H2. destruct (destroy_dec l') as [?|Hn]; [by apply Hk3|]. by rewrite (ke_alive _ _ _ Hk3 Hn).
        -- intros Hap. rewrite arrived_app, app_assoc, Hs by done. rewrite <- app_assoc, <- (ke_dev _ _ _ Hk), Hs3 by done. cbn. by rewrite <- app_assoc.
Qed.

(** ** waitForBytesWritten *)
Lemma cspec_written_impl denv c to s0 U (Q : option arg -> list tev -> wstate -> Prop) : walive s0 = true -> whelp s0 = None ->
  (is_socket c -> o_state (wdev s0) ≠ SConnected -> ∀ co, Q None [] (set_co co s0)) ->
  (c = NetworkReply -> o_finished (wdev s0) = true -> ∀ co, Q (Some (AInt 0)) [] (set_co co s0)) ->
  (¬ (c = NetworkReply ∧ o_finished (wdev s0) = true) -> ∀ v l s2, helper_wait (written_helper c) (wdev s0) to l v -> kept s0 s2 l -> hist denv s0 s2 l -> Q v l s2) ->
  cspec denv s0 (λ k : option arg -> wprog A, written_impl c to k) U Q.
Proof.
  intros Ha Hh H1 H2 H3. destruct c; cbn -[qCoro_helper].
  - apply cspec_helper_wait; try done. intros v l s2 Hw Hk Hb. apply H3; [by intros [? ?]|done|done|]. apply Hb, written_calm.
  - apply (cspec_get denv s0 (λ d k, if sconnected d then qCoro_helper (written_helper AbstractSocket) to k else k None)); [done|].
    unfold sconnected. destruct (o_state (wdev s0)) eqn:E; try (apply (cspec_ret denv s0 None); intros co; apply H1; [by left|congruence]).
    apply cspec_helper_wait; try done. intros v l s2 Hw Hk Hb. apply H3; [by intros [? ?]|done|done|]. apply Hb, written_calm.
  - apply (cspec_get denv s0 (λ d k, if sconnected d then qCoro_helper (written_helper LocalSocket) to k else k None)); [done|].
    unfold sconnected. destruct (o_state (wdev s0)) eqn:E; try (apply (cspec_ret denv s0 None); intros co; apply H1; [by right|congruence]).
    apply cspec_helper_wait; try done. intros v l s2 Hw Hk Hb. apply H3; [by intros [? ?]|done|done|]. apply Hb, written_calm.
  - apply (cspec_get denv s0 (λ d k, if o_finished d then k (Some (AInt 0)) else qCoro_helper (written_helper NetworkReply) to k)); [done|].
    destruct (o_finished (wdev s0)) eqn:E; [apply (cspec_ret denv s0 (Some (AInt 0))); intros co; by apply H2|]. apply cspec_helper_wait; try done. intros v l s2 Hw Hk Hb. apply H3; [by intros [? ?]|done|done|]. apply Hb, written_calm.
Qed.

Lemma cspec_waitForBytesWritten denv c to s0 U : walive s0 = true -> whelp s0 = None ->
  cspec denv s0 (λ k : option arg -> wprog A, waitForBytesWritten c to k) U (λ v l s, bytes_written c (wdev s0) to (int_of <$> v) l ∧ kept s0 s l ∧ hist denv s0 s l).
Proof.
  intros Ha Hh. unfold waitForBytesWritten.
  apply (cspec_get denv s0 (λ d k, if negb (o_writable d) then k None else if (o_towrite d =? 0)%Z then k (Some (AInt 0)) else written_impl c to k)); [done|].
  destruct (o_writable (wdev s0)) eqn:Er; cbn [negb]; cycle 1.
  { apply (cspec_ret denv s0 None). intros co. split; [by apply bw_unwritable|split; [apply kept_refl|apply hist_refl]]. }
  destruct (Z.eqb_spec (o_towrite (wdev s0)) 0) as [Ez|Ez].
  { apply (cspec_ret denv s0 (Some (AInt 0))). intros co. split; [by apply bw_nothing|split; [apply kept_refl|apply hist_refl]]. }
  apply cspec_written_impl; try done.
  - intros Hs Hc co. split; [by apply bw_socket|split; [apply kept_refl|apply hist_refl]].
  - intros Hs Hc co. split; [by apply bw_reply|split; [apply kept_refl|apply hist_refl]].
  - intros _ [v|] l s2 Hw Hk Hb; (split; [|done]).
    + destruct (ended_written _ _ _ _ _ Hw) as (lw & sg & a & -> & Hq & He & Hwk). by eapply bw_signal.
    + destruct (timed_out _ _ _ _ Hw) as (n & lw & -> & Hq & Hto & Hn). by eapply bw_timeout.
Qed.

(** ** write *)
Definition wfrob (p : wprog A) : wprog A :=
  match p with
  | WRet a => WRet a | WObs o p => WObs o p | WAlive k => WAlive k | WGet k => WGet k | WCall f k => WCall f k
  | WHelper h p => WHelper h p | WDrop p => WDrop p | WAwait m c to k => WAwait m c to k | WBad => WBad
  end.
Lemma wfrob_eq (p : wprog A) : p = wfrob p.
Proof. by destruct p. Qed.

Definition write_next c total confirmed (k : Z -> wprog A) (r : option arg) : wprog A :=
  match r with Some a => write_loop c total (confirmed + int_of a) k | None => WAlive (λ _, k confirmed) end.
Definition write_iter c total confirmed (k : Z -> wprog A) : wprog A :=
  WGet (λ d, if o_wrapper d then waitForBytesWritten c None (write_next c total confirmed k) else WBad).
Lemma write_loop_eq c total confirmed (k : Z -> wprog A) :
  write_loop c total confirmed k = WAlive (λ _, if (confirmed <? total)%Z then write_iter c total confirmed k else k confirmed).
Proof. rewrite (wfrob_eq (write_loop _ _ _ _)). reflexivity. Qed.

(** The device reports that there is nothing to wait for. *)
Definition nothing_to_wait (c : cls) (d : qobj) : Prop :=
  o_writable d = true ∧ (o_towrite d = 0%Z ∨ (c = NetworkReply ∧ o_finished d = true)).

Inductive spinning c (d : qobj) total (k : Z -> wprog A) : wprog A -> Prop :=
  | sp_loop n : (n < total)%Z -> spinning c d total k (write_loop c total n k)
  | sp_iter n : (n < total)%Z -> spinning c d total k (write_iter c total n k)
  | sp_wait n : (n < total)%Z -> spinning c d total k (waitForBytesWritten c None (write_next c total n k))
  | sp_impl n : (n < total)%Z -> c = NetworkReply -> o_finished d = true -> spinning c d total k (written_impl c None (write_next c total n k)).

Lemma spin_step c total k p (s0 : wstate) : spinning c (wdev s0) total k p -> wubs s0 = None -> walive s0 = true -> o_wrapper (wdev s0) = true -> nothing_to_wait c (wdev s0) ->
  ∃ p', spinning c (wdev s0) total k p' ∧ step (set_co (CRun p) s0) = Next (set_co (CRun p') s0).
Proof.
  intros Hp Hu Ha Hw [Hwr Hno]. destruct Hp as [n Hn|n Hn|n Hn|n Hn Hc Hf].
  - exists (write_iter c total n k). split; [by constructor|]. rewrite write_loop_eq. unfold step. cbn. rewrite Hu. by rewrite (proj2 (Z.ltb_lt _ _) Hn).
  - exists (waitForBytesWritten c None (write_next c total n k)). split; [by constructor|]. unfold step. cbn. rewrite Hu, Ha, Hw. done.
  - unfold waitForBytesWritten, step. cbn. rewrite Hu, Ha, Hwr. cbn. destruct (Z.eqb_spec (o_towrite (wdev s0)) 0) as [Ez|Ez].
    + exists (write_loop c total n k). split; [by constructor|]. cbn. by rewrite Z.add_0_r.
    + destruct Hno as [?|[? ?]]; [done|]. exists (written_impl c None (write_next c total n k)). split; [by constructor|done].
  - subst c. unfold written_impl, step. cbn -[written_helper]. rewrite Hu, Ha, Hf. exists (write_loop NetworkReply total n k). split; [by constructor|]. cbn. by rewrite Z.add_0_r.
Qed.
Lemma spin_exec denv c total k p (s0 s : wstate) : spinning c (wdev s0) total k p -> wubs s0 = None -> walive s0 = true -> o_wrapper (wdev s0) = true -> nothing_to_wait c (wdev s0) ->
  exec denv (set_co (CRun p) s0) s -> ∃ p', spinning c (wdev s0) total k p' ∧ s = set_co (CRun p') s0.
Proof.
  intros Hp Hu Ha Hw Hno Hx. remember (set_co (CRun p) s0) as si eqn:E. induction Hx as [si|si s s' Hx IH Hst|si s e s' Hx IH Hid].
  - subst si. by exists p.
  - destruct (IH E) as (p' & Hp' & ->). destruct (spin_step c total k p' s0) as (p2 & Hp2 & Hs2); try done. rewrite Hs2 in Hst. injection Hst as <-. by exists p2.
  - destruct (IH E) as (p' & Hp' & ->). destruct (spin_step c total k p' s0) as (p2 & Hp2 & Hs2); try done. congruence.
Qed.
Lemma cspec_spin denv c total n (s0 : wstate) U Q : (n < total)%Z -> walive s0 = true -> o_wrapper (wdev s0) = true -> nothing_to_wait c (wdev s0) ->
  cspec denv s0 (λ k : Z -> wprog A, write_loop c total n k) U Q.
Proof.
  intros Hn Ha Hw Hno (_ & Hu & _) k s Hx. destruct (spin_exec denv c total k (write_loop c total n k) s0 s) as (p' & _ & ->); try done; [by constructor|].
  left. exists []. split; [done|]. split; [apply inside_nil|]. cbn. rewrite Hu. done.
Qed.

Definition write_body c total (confirmed : Z) (k : Z + Z -> wprog A) : wprog A :=
  WAlive (λ _, if (confirmed <? total)%Z then
      WGet (λ d, if o_wrapper d then waitForBytesWritten c None (λ r, match r with Some a => k (inl (confirmed + int_of a)%Z) | None => WAlive (λ _, k (inr confirmed)) end) else WBad)
    else k (inr confirmed)).

(** When write() may stop before everything is confirmed. *)
Definition stops_early (c : cls) (d : qobj) : Prop := o_writable d = false ∨ (is_socket c ∧ o_state d ≠ SConnected).

(** The device or the wrapper object is gone. *)
Definition gone (d : qobj) (l : list tev) : Prop := TDestroy ∈ l ∨ o_wrapper (dev_after d l) = false.

Lemma cspec_write_loop denv c total (s1 : wstate) : walive s1 = true -> whelp s1 = None ->
  cspec denv s1 (λ k : Z -> wprog A, write_loop c total 0 k)
    (λ u l, (u = WDead ∧ TDestroy ∈ l ∨ u = WUndef ∧ o_wrapper (dev_after (wdev s1) l) = false) ∧ ∃ n, flushed c (wdev s1) l n ∧ (n < total)%Z)
    (λ n l s, flushed c (wdev s1) l n ∧ kept s1 s l ∧ ((total ≤ n)%Z ∨ (stops_early c (wdev s) ∧ ¬ gone (wdev s1) l)) ∧ hist denv s1 s l).
Proof.
  intros Ha1 Hh1.
  set (U := λ u (l : list tev), (u = WDead ∧ TDestroy ∈ l ∨ u = WUndef ∧ o_wrapper (dev_after (wdev s1) l) = false) ∧ ∃ n, flushed c (wdev s1) l n ∧ (n < total)%Z).
  set (Q := λ n (l : list tev) (s : wstate), flushed c (wdev s1) l n ∧ kept s1 s l ∧ ((total ≤ n)%Z ∨ (stops_early c (wdev s) ∧ ¬ gone (wdev s1) l)) ∧ hist denv s1 s l).
  assert (H : cspec denv s1 (λ k : Z -> wprog A, write_loop c total 0 k) (λ u l', U u (l' ++ [])) (λ b l' s', Q b (l' ++ []) s')).
  2: { eapply cspec_mono; [exact H|..]; cbn beta; [intros u l|intros b l s _]; by rewrite app_nil_r. }
  apply (cspec_loop denv (λ n k, write_loop c total n k) (write_body c total) U Q (λ n l s, flushed c (wdev s1) l n ∧ kept s1 s l ∧ hist denv s1 s l)); cycle 2.
  { split; [constructor|]. split; [rewrite (set_co_same s1 (wco s1) eq_refl) at 2; apply kept_refl|rewrite (set_co_same s1 (wco s1) eq_refl) at 2; apply hist_refl]. }
  { apply inside_nil. }
  { intros n k. rewrite write_loop_eq. unfold write_body. reflexivity. }
  intros n l s Hg (Hf & Hk & Hhi) Hin.
  pose proof (ke_help _ _ _ Hk Hh1) as Hh.
  assert (Hdev : o_wrapper (wdev s) = o_wrapper (dev_after (wdev s1) l)) by (by rewrite (ke_dev _ _ _ Hk)).
  assert (Hgo : ¬ ((n < total)%Z ∧ walive s = true ∧ o_wrapper (wdev s) = true ∧ nothing_to_wait c (wdev s)) ->
    cspec denv s (write_body c total n) (λ u l', U u (l' ++ l))
     (λ r l' s', match r with inl x' => l' ≠ [] ∧ flushed c (wdev s1) (l' ++ l) x' ∧ kept s1 s' (l' ++ l) ∧ hist denv s1 s' (l' ++ l) | inr b => Q b (l' ++ l) s' end)).
  { intros Hns. unfold write_body.
    apply (cspec_alive denv s (λ _ k, if (n <? total)%Z then WGet (λ d, if o_wrapper d then waitForBytesWritten c None (λ r, match r with Some a => k (inl (n + int_of a)%Z) | None => WAlive (λ _, k (inr n)) end) else WBad) else k (inr n))).
    destruct (Z.ltb_spec n total) as [Hlt|Hge]; cycle 1.
    { apply (cspec_ret denv s (inr n : Z + Z)). intros co. split; [done|]. split; [by destruct Hk|]. split; [by left|exact Hhi]. }
    destruct (walive s) eqn:Ea; cycle 1.
    { apply (cspec_get_dead denv s (λ d k, if o_wrapper d then waitForBytesWritten c None (λ r, match r with Some a => k (inl (n + int_of a)%Z) | None => WAlive (λ _, k (inr n)) end) else WBad)); [done|].
      split; [|exists n; done]. left. split; [done|]. cbn. by eapply dead_destroyed; [apply Hk| |]. }
    apply (cspec_get denv s (λ d k, if o_wrapper d then waitForBytesWritten c None (λ r, match r with Some a => k (inl (n + int_of a)%Z) | None => WAlive (λ _, k (inr n)) end) else WBad)); [done|].
    destruct (o_wrapper (wdev s)) eqn:Ew; cycle 1.
    { apply cspec_bad. split; [|exists n; done]. right. split; [done|]. cbn. by rewrite <- Hdev. }
    apply (cspec_bind denv s (λ k, waitForBytesWritten c None k) (λ r k, match r with Some a => k (inl (n + int_of a)%Z) | None => WAlive (λ _, k (inr n)) end) _
      (λ v l s', bytes_written c (wdev s) None (int_of <$> v) l ∧ kept s s' l ∧ hist denv s s' l)).
    - by apply cspec_waitForBytesWritten.
    - intros [v|] l' s2 Hg2 (Hbw & Hk2 & Hbe) Hin2.
      + apply (cspec_ret denv s2 (inl (n + int_of v)%Z : Z + Z)). intros co. cbn.
        assert (Hne : l' ≠ []).
        { cbn in Hbw. intros ->. apply Hns. split; [done|]. split; [done|]. split; [done|]. inversion Hbw; split; auto. }
        split; [done|]. split; [apply fl_wait; [done|by rewrite <- (ke_dev _ _ _ Hk)|done]|]. split; [apply (kept_app s1 s); [done|by destruct Hk2|by left]|]. exact (hist_app denv s1 s s2 l l' (ke_dev _ _ _ Hk) Hhi Hbe).
      + apply (cspec_alive denv s2 (λ _ k, k (inr n))). apply (cspec_ret denv s2 (inr n : Z + Z)). intros co. cbn in *. split; [|split; [|split]].
        * assert (l' = []) as -> by (inversion Hbw; done). done.
        * apply (kept_app s1 s); [done|by destruct Hk2|by left].
        * right. assert (l' = []) as -> by (inversion Hbw; done). pose proof (ke_dev _ _ _ Hk2) as Hd2.
          split; [|cbn [app]; intros [Hd|Hd]; [rewrite (ke_dead _ _ _ Hk Hd) in Ea; done|congruence]]. change (stops_early c (wdev s2)). cbn in Hd2. rewrite Hd2. inversion Hbw; simplify_eq; unfold stops_early; auto.
        * exact (hist_app denv s1 s s2 l l' (ke_dev _ _ _ Hk) Hhi Hbe). }
  destruct (decide (n < total)%Z) as [Hlt|Hge]; [|right; apply Hgo; by intros [? _]].
  destruct (walive s) eqn:Ea; [|right; apply Hgo; by intros (_ & ? & _)].
  destruct (o_wrapper (wdev s)) eqn:Ew; [|right; apply Hgo; by intros (_ & _ & ? & _)].
  destruct (o_writable (wdev s)) eqn:Ewr; [|right; apply Hgo; intros (_ & _ & _ & Hno & _); congruence].
  destruct (decide (o_towrite (wdev s) = 0%Z)) as [Ez|Ez].
  { left. apply cspec_spin; try done. split; auto. }
  destruct (o_finished (wdev s)) eqn:Ef; [|right; apply Hgo; intros (_ & _ & _ & _ & [?|[_ ?]]); congruence].
  destruct (cls_dec c) as [Hc|Hc]; [|right; apply Hgo; intros (_ & _ & _ & _ & [?|[? _]]); congruence].
  left. apply cspec_spin; try done. split; auto.
Qed.

Lemma cspec_write denv c wr s0 : walive s0 = true -> whelp s0 = None ->
  let '(total, d1, ems) := wr (wdev s0) in
  let l0 := emitted_by ems ++ [TDev d1] in
  cspec denv s0 (λ k : Z -> wprog A, write c wr k)
    (λ u l, (u = WDead ∧ TDestroy ∈ l ∨ u = WUndef ∧ o_wrapper (dev_after (wdev s0) l) = false) ∧ ∃ l1 n, l = l1 ++ l0 ∧ flushed c d1 l1 n ∧ (n < total)%Z)
    (λ n l s, ∃ l1, l = l1 ++ l0 ∧ flushed c d1 l1 n ∧ wdev s = dev_after (wdev s0) l ∧ ((total ≤ n)%Z ∨ (stops_early c (wdev s) ∧ ¬ gone (wdev s0) l)) ∧ (wtodo s0 = [] -> plays denv d1 l1 [])).
Proof.
  intros Ha Hh. destruct (wr (wdev s0)) as [[total d1] ems] eqn:Ew. intros l0. unfold write.
  apply (cspec_call_emits denv s0 (λ d, (snd (fst (wr d)), snd (wr d))) (λ d k, write_loop c (fst (fst (wr d))) 0 k)); [done|done|].
  rewrite Ew. cbn [fst snd]. fold l0. set (s1 := wlogs l0 (set_dev d1 s0)).
  eapply cspec_mono; [apply (cspec_write_loop denv c total s1); done|..]; cbn beta.
  - intros u l [Hor (n & Hf & Hn)]. split; [|exists l, n; done]. destruct Hor as [[? ?]|[? Hw]]; [left; split; [done|]; apply elem_of_app; by left|right; split; [done|]].
    rewrite dev_after_app. unfold l0. by rewrite dev_after_emitted.
  - intros n l s Hg (Hf & Hk & Hor & _ & Hpl). exists l. split; [done|]. split; [done|]. split; [rewrite dev_after_app; unfold l0; rewrite dev_after_emitted; apply Hk|].
    split; [|intros Ht; exact (proj1 (Hpl Ht))].
    destruct Hor as [?|[? Hng]]; [by left|right]. split; [done|]. intros [Hd|Hd]; apply Hng.
    + left. apply elem_of_app in Hd as [?|[Hd|Hd%elem_of_list_singleton]%elem_of_app]; [done| |done]. exfalso. unfold emitted_by in Hd.
      rewrite elem_of_reverse, elem_of_list_fmap in Hd. by destruct Hd as (? & ? & _).
    + right. rewrite dev_after_app in Hd. unfold l0 in Hd. by rewrite dev_after_emitted in Hd.
Qed.
End facts.
