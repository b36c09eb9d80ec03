(** * Property theorems C118, C119 (what the result of QCoroIODevice::write() says about the device).

    Vocabulary: see PropsIO.v; [plays] (QtSpec.v): the history of the device on its own. *)
From stdpp Require Import list.
From Coq Require Import ZArith.
From Verif Require Import TaskRun.
From Verif Require Import QtModel QtSpec QtInv QtAwait QtReach QtWrap QtTrace QtBehave QtCall QtEnds QtCall2 QtEnds2 QtObj QtIO QtIOSpec QtIOFacts QtIOEnds QtWaitOr PropsSignal PropsIO.
#[local] Open Scope Z_scope.

(** The number of bytes that bytesWritten() signals report. *)
Fixpoint reported (ems : list (sig * arg)) : Z :=
  match ems with [] => 0 | (BytesWritten, a) :: ems => int_of a + reported ems | _ :: ems => reported ems end.

(** A device that tells the truth: bytesWritten(n) is emitted for bytes that were taken from the write buffer (bytes may also
    be discarded without a signal). *)
Definition truthful (denv : qobj -> list (sig * arg) -> qobj -> Prop) : Prop :=
  ∀ d ems d', denv d ems d' -> 0 <= o_towrite d' ∧ (∀ a, (BytesWritten, a) ∈ ems -> 0 <= int_of a) ∧ reported ems <= o_towrite d - o_towrite d'.

Section write.
Context {O A : Type}.
Notation tev := (@tev qobj sig arg O A).
Notation wstate := (@wstate qobj sig arg O A).
Notation wprog := (@wprog qobj sig arg O A).

Fixpoint reports (l : list tev) : Z :=
  match l with [] => 0 | TEmit BytesWritten a :: l => int_of a + reports l | _ :: l => reports l end.
Definition nonneg (l : list tev) : Prop := ∀ a, TEmit BytesWritten a ∈ l -> 0 <= int_of a.
Lemma reports_app (l l' : list tev) : reports (l ++ l') = reports l + reports l'.
Proof. induction l as [|[| [] | | | | | | | | |] l IH]; cbn [app reports]; lia. Qed.
Lemma nonneg_app (l l' : list tev) : nonneg (l ++ l') -> nonneg l ∧ nonneg l'.
Proof. intros H. split; intros a Ha; apply H, elem_of_app; auto. Qed.
Lemma reports_nonneg (l : list tev) : nonneg l -> 0 <= reports l.
Proof.
  intros H. induction l as [|e l IH]; [done|]. assert (0 <= reports l) by (apply IH; intros a Ha; apply H; by right).
  destruct e as [|sg a| | | | | | | | |]; try done. destruct sg; try done. cbn. assert (0 <= int_of a) by (apply H; left). lia.
Qed.

Lemma plays_reports denv d (l : list tev) q : truthful denv -> plays denv d l q -> 0 <= o_towrite d ->
  reports l + reported q <= o_towrite d - o_towrite (dev_after d l) ∧ nonneg l ∧ (∀ a, (BytesWritten, a) ∈ q -> 0 <= int_of a) ∧ 0 <= o_towrite (dev_after d l).
Proof.
  intros Ht Hp Hd. induction Hp as [|l d' ems Hp IH Hde|l sg p q Hp IH|l e q Hp IH He].
  - split; [cbn; lia|]. split; [by intros ? ?%elem_of_nil|]. split; [by intros ? ?%elem_of_nil|done].
  - destruct IH as (H1 & H2 & _ & H4). destruct (Ht _ _ _ Hde) as (H5 & H6 & H7). cbn in *. split; [lia|]. split; [|done]. intros a [?|?]%elem_of_cons; [done|by apply H2].
  - destruct IH as (H1 & H2 & H3 & H4). split; [destruct sg; cbn in *; lia|]. split; [|split; [|done]].
    + intros a [E|?]%elem_of_cons; [|by apply H2]. injection E as <- <-. apply H3. left.
    + intros a Ha. apply H3. by right.
  - destruct IH as (H1 & H2 & H3 & H4). split; [destruct e; try done|]. split; [intros a [?|?]%elem_of_cons; [by subst e|by apply H2]|]. split; [done|]. by destruct e.
Qed.
Lemma flushed_reports c d (l : list tev) n : flushed c d l n -> nonneg l -> 0 <= n <= reports l.
Proof.
  induction 1 as [|l n lw m Hf IH Hb Hne]; intros Hn; [done|]. apply nonneg_app in Hn as [Hw Hl]. specialize (IH Hl). rewrite reports_app.
  assert (0 <= m <= reports lw); [|lia]. clear IH Hf Hl. inversion Hb; simplify_eq; try done.
  match goal with H : ended_by _ _ _ _ _ |- _ => destruct H as (l1 & l2 & -> & _) end.
  match goal with H : wakes_write _ _ _ _ |- _ => rename H into Hwk end.
  match goal with |- context [reports ?x] => assert (Hx : x = (TResume (Some v) :: l1) ++ [TEmit sg a] ++ (l2 ++ [TSusp FromHelper None])) by (cbn; by rewrite <- app_assoc); rewrite Hx in Hw |- * end.
  apply nonneg_app in Hw as [Hw1 Hw2]. apply nonneg_app in Hw2 as [Hw2 Hw3]. apply reports_nonneg in Hw1, Hw3. rewrite !reports_app in *.
  destruct sg; cbn in Hwk; destruct_and?; subst; try done; try (cbn [int_of reports] in *; lia). assert (0 <= int_of a) by (apply Hw2; left). cbn [reports] in *. lia.
Qed.

(** ** C118 *)

(** If the device tells the truth, the result of write() is at most the number of bytes that left the write buffer since
    QIODevice::write() accepted the data ([wtodo s0 = []]: write() is not called from within an emission of this device). *)
Theorem C118_write denv (s0 : wstate) c wr total d1 ems :
  reach denv s0 -> wubs s0 = None -> noleak s0 -> walive s0 = true -> whelp s0 = None -> wtodo s0 = [] -> truthful denv ->
  wr (wdev s0) = (total, d1, ems) -> 0 <= o_towrite d1 ->
  call_spec denv s0 (λ k : Z -> wprog, write c wr k)
    (λ u l, u = WDead ∧ TDestroy ∈ l ∨ u = WUndef ∧ o_wrapper (dev_after (wdev s0) l) = false)
    (λ n l s, 0 <= n ∧ n <= o_towrite d1 - o_towrite (wdev s) ∧ 0 <= o_towrite (wdev s)).
Proof.
  intros Hr Hu Hl Ha Hh Htd Htr Hw Hd1. apply cspec_call; try done. pose proof (cspec_write denv c wr s0 Ha Hh) as H. rewrite Hw in H.
  eapply cspec_mono; [exact H|by intros u l [? _]|]. intros n l s _ (l1 & -> & Hf & Hd & _ & Hpl). specialize (Hpl Htd).
  rewrite dev_after_app, dev_after_emitted in Hd. rewrite Hd. destruct (plays_reports denv d1 l1 [] Htr Hpl Hd1) as (H1 & H2 & _ & H4). destruct (flushed_reports _ _ _ _ Hf H2). cbn in H1. lia.
Qed.

(** So if nothing else was in the write buffer, the result is at most the number of bytes accepted, and when it is this
    number everything was taken from the buffer. *)
Theorem C118_complete denv (s0 : wstate) c wr total d1 ems :
  reach denv s0 -> wubs s0 = None -> noleak s0 -> walive s0 = true -> whelp s0 = None -> wtodo s0 = [] -> truthful denv ->
  wr (wdev s0) = (total, d1, ems) -> o_towrite d1 = total -> 0 <= total ->
  call_spec denv s0 (λ k : Z -> wprog, write c wr k)
    (λ u l, u = WDead ∧ TDestroy ∈ l ∨ u = WUndef ∧ o_wrapper (dev_after (wdev s0) l) = false)
    (λ n l s, 0 <= n <= total ∧ (n = total -> o_towrite (wdev s) = 0) ∧
       (n < total -> o_writable (wdev s) = false ∨ (is_socket c ∧ o_state (wdev s) ≠ SConnected))).
Proof.
  intros Hr Hu Hl Ha Hh Htd Htr Hw Hd1 Ht. apply cspec_call; try done. pose proof (cspec_write denv c wr s0 Ha Hh) as H. rewrite Hw in H.
  eapply cspec_mono; [exact H|by intros u l [? _]|]. intros n l s _ (l1 & -> & Hf & Hd & Hor & Hpl). specialize (Hpl Htd).
  rewrite dev_after_app, dev_after_emitted in Hd. destruct (plays_reports denv d1 l1 [] Htr Hpl) as (H1 & H2 & _ & H4); [lia|]. destruct (flushed_reports _ _ _ _ Hf H2). cbn in H1. rewrite <- Hd in *.
  split; [lia|]. split; [lia|]. intros Hlt. destruct Hor as [?|[? _]]; [lia|done].
Qed.

(** ** C120 *)

(** Every report comes when write() waits for it: between a signal that ends a wait and a later bytesWritten() the coroutine
    was resumed. *)
Definition in_time (c : cls) (l : list tev) : Prop :=
  ∀ l1 l2 l3 b sg a, l = l1 ++ TEmit BytesWritten b :: l2 ++ TEmit sg a :: l3 -> (∃ v, wakes_write c sg a v) -> ∃ r, TResume r ∈ l2.
Lemma in_time_app c (l l' : list tev) : in_time c (l ++ l') -> in_time c l ∧ in_time c l'.
Proof.
  intros H. split; intros l1 l2 l3 b sg a -> Hw; [eapply (H l1 l2 (l3 ++ l'))|eapply (H (l ++ l1) l2 l3)]; try exact Hw; rewrite <- ?app_assoc; cbn; rewrite <- ?app_assoc; done.
Qed.
Lemma reports_none (l : list tev) : (∀ a, TEmit BytesWritten a ∉ l) -> reports l = 0.
Proof.
  intros H. induction l as [|e l IH]; [done|]. assert (IH' : reports l = 0) by (apply IH; intros a ?; apply (H a); by right).
  destruct e as [|sg a| | | | | | | | |]; try done. destruct sg; try done. exfalso. apply (H a). left.
Qed.
Lemma reports_some (l : list tev) : reports l ≠ 0 -> ∃ a, TEmit BytesWritten a ∈ l.
Proof.
  intros H. induction l as [|e l IH]; [done|]. destruct e as [|sg a| | | | | | | | |]; try (destruct (IH H) as [b ?]; exists b; by right).
  destruct sg; try (destruct (IH H) as [b ?]; exists b; by right). exists a. left.
Qed.
Lemma first_value c d (l : list tev) v : c ≠ NetworkReply -> head (map snd (relays (written_helper c) d l)) = Some v -> in_time c l -> (∀ r, TResume r ∉ l) -> int_of v = reports l.
Proof.
  intros Hc Hh Ht Hq. destruct (relays_head _ _ _ _ Hh) as (sg & a & b & o & l1 & l2 & -> & Hr & Hn).
  assert (Hwk : wakes_write c sg a v) by (apply (written_relay c sg a (dev_after d l2)); eauto).
  assert (H1 : reports l1 = 0).
  { apply reports_none. intros x (y & z & ->)%elem_of_list_split. destruct (Ht y z l2 x sg a) as [r Hin]; [by rewrite <- app_assoc|by exists v|].
    apply (Hq r). apply elem_of_app. left. apply elem_of_app. right. by right. }
  assert (H2 : reports l2 = 0).
  { apply reports_none. intros x (y & z & ->)%elem_of_list_split. pose proof (relays_none _ _ _ Hn BytesWritten x y z eq_refl) as Hx. done. }
  rewrite reports_app, H1. destruct sg; cbn in Hwk; destruct_and?; subst; try done; cbn [reports int_of]; lia.
Qed.
Lemma wait_value c d (l : list tev) v : c ≠ NetworkReply -> helper_wait (written_helper c) d None l v -> in_time c l -> ∃ a, v = Some a ∧ int_of a = reports l.
Proof.
  intros Hc (lw & -> & Hq & Hv) Ht. destruct v as [p|]; [|by destruct Hv as (? & ? & ? & _)]. exists p. split; [done|]. destruct Hv as [_ Hv].
  change (reports (TResume (Some p) :: lw ++ [TSusp FromHelper None])) with (reports (lw ++ [TSusp FromHelper None])).
  apply (first_value c d); [done| |by apply (in_time_app c [TResume (Some p)])|].
  - rewrite relays_app. cbn. rewrite <- (Hv (written_direct c Hc)). reflexivity.
  - intros r [Hin|[? | ?%elem_of_nil]%elem_of_cons]%elem_of_app; try done. by specialize (Hq _ Hin).
Qed.

Lemma idle_next denv (s0 s1 s : wstate) : step s0 = Next s1 -> exec denv s0 s -> step s = Idle -> exec denv s1 s.
Proof. intros Hs Hx Hid. destruct (exec_inv _ _ _ Hx) as [->|[(s1' & Hst & H)|(e & s1' & Hst & _)]]; congruence. Qed.
Definition back_at (denv : qobj -> list (sig * arg) -> qobj -> Prop) (k : Z -> wprog) (s0 s : wstate) : Prop :=
  (∃ s2 b, exec denv s0 s2 ∧ exec denv s2 s ∧ wco s2 = CRun (k b)) ∨ ∃ s', turns s s' ∧ ((∃ b, wco s' = CRun (k b)) ∨ is_Some (wubs s')).
Lemma back_step denv k (s0 s1 s : wstate) : step s0 = Next s1 -> back_at denv k s1 s -> back_at denv k s0 s.
Proof. intros Hs [(s2 & b & H1 & H2 & H3)|?]; [left|by right]. exists s2, b. split; [|done]. eapply exec_trans; [|exact H1]. eapply exec_step; [constructor|done]. Qed.
Lemma back_exec denv k (s0 s1 s : wstate) : exec denv s0 s1 -> back_at denv k s1 s -> back_at denv k s0 s.
Proof. intros Hs [(s2 & b & H1 & H2 & H3)|?]; [left|by right]. exists s2, b. split; [|done]. by eapply exec_trans. Qed.

Lemma set_co_co (p q : costat) (s0 : wstate) : set_co p (set_co q s0) = set_co p s0.
Proof. done. Qed.
Lemma written_or denv c (kk : option arg -> wprog) (s0 s : wstate) : c ≠ NetworkReply -> wubs s0 = None -> walive s0 = true -> exec denv (set_co (CRun (written_impl c None kk)) s0) s -> step s = Idle ->
  ∃ p, (p = kk None ∨ p = qCoro_helper (written_helper c) None kk) ∧ exec denv (set_co (CRun (written_impl c None kk)) s0) (set_co (CRun p) s0) ∧ exec denv (set_co (CRun p) s0) s.
Proof.
  intros Hc Hu Ha Hx Hid. destruct c; [exists (qCoro_helper (written_helper IODevice) None kk); split; [by right|]; split; [constructor|done]|..]; [..|done].
  all: match goal with |- ∃ p, (_ ∨ p = qCoro_helper ?h _ _) ∧ _ => set (hh := h) in * end.
  all: assert (Hst : step (set_co (CRun (WGet (λ d, if sconnected d then qCoro_helper hh None kk else kk None))) s0) = Next (set_co (CRun (if sconnected (wdev s0) then qCoro_helper hh None kk else kk None)) s0)) by (unfold step; cbn; by rewrite Hu, Ha).
  all: exists (if sconnected (wdev s0) then qCoro_helper hh None kk else kk None); split; [destruct (sconnected _); auto|]; split; [eapply exec_step; [constructor|exact Hst]|by eapply idle_next].
Qed.

Lemma write_loop_ends denv c total k : c ≠ NetworkReply -> ∀ m n (s0 s : wstate) l, (length (wtrace s) <= m + length (wtrace s0))%nat -> good s0 -> whelp s0 = None ->
  exec denv (set_co (CRun (write_loop c total n k)) s0) s -> step s = Idle -> wubs s = None -> wtrace s = l ++ wtrace s0 -> total <= n + reports l -> in_time c l ->
  back_at denv k (set_co (CRun (write_loop c total n k)) s0) s.
Proof.
  intros Hc m. induction m as [m IH] using lt_wf_ind. intros n s0 s l Hm Hg Hh Hx Hid Hus Ht Htot Hin. pose proof Hg as (Hcl & Hu & Hl).
  set (si := set_co (CRun (write_loop c total n k)) s0) in *.
  assert (Hst1 : step si = Next (set_co (CRun (if (n <? total) then write_iter c total n k else k n)) s0)) by (unfold step, si; rewrite write_loop_eq; cbn; by rewrite Hu).
  pose proof (idle_next _ _ _ _ Hst1 Hx Hid) as Hx1. eapply back_step; [exact Hst1|]. clear Hx Hst1 si.
  destruct (Z.ltb_spec n total) as [Hlt|Hge]; [|left; eexists _, n; split; [constructor|]; split; [exact Hx1|done]].
  (* the device and the wrapper are there *)
  destruct (walive s0) eqn:Ea; cycle 1.
  { exfalso. assert (Hst : step (set_co (CRun (write_iter c total n k)) s0) = Next (wfail WDead (set_co (CRun (write_iter c total n k)) s0))) by (unfold step; cbn; by rewrite Hu, Ea).
    pose proof (idle_next _ _ _ _ Hst Hx1 Hid) as Hx2. apply (ub_stuck denv _ s WDead) in Hx2 as ->; done. }
  destruct (o_wrapper (wdev s0)) eqn:Ew; cycle 1.
  { exfalso. assert (Hst : step (set_co (CRun (write_iter c total n k)) s0) = Next (set_co (CRun WBad) s0)) by (unfold step; cbn; by rewrite Hu, Ea, Ew).
    pose proof (idle_next _ _ _ _ Hst Hx1 Hid) as Hx2. assert (Hst2 : step (set_co (CRun (WBad : wprog)) s0) = Next (wfail WUndef (set_co (CRun WBad) s0))) by (unfold step; cbn; by rewrite Hu).
    pose proof (idle_next _ _ _ _ Hst2 Hx2 Hid) as Hx3. apply (ub_stuck denv _ s WUndef) in Hx3 as ->; done. }
  assert (Hst1 : step (set_co (CRun (write_iter c total n k)) s0) = Next (set_co (CRun (waitForBytesWritten c None (write_next c total n k))) s0)) by (unfold step; cbn; by rewrite Hu, Ea, Ew).
  pose proof (idle_next _ _ _ _ Hst1 Hx1 Hid) as Hx2. eapply back_step; [exact Hst1|]. clear Hx1 Hst1.
  assert (Hnone : exec denv (set_co (CRun (write_next c total n k None)) s0) s -> back_at denv k (set_co (CRun (write_next c total n k None)) s0) s).
  { intros Hy. assert (Hst : step (set_co (CRun (write_next c total n k None)) s0) = Next (set_co (CRun (k n)) s0)) by (unfold step; cbn; by rewrite Hu).
    eapply back_step; [exact Hst|]. left. eexists _, n. split; [constructor|]. split; [by eapply idle_next|done]. }
  destruct (o_writable (wdev s0)) eqn:Ewr; cycle 1.
  { assert (Hst : step (set_co (CRun (waitForBytesWritten c None (write_next c total n k))) s0) = Next (set_co (CRun (write_next c total n k None)) s0)) by (unfold step; cbn; by rewrite Hu, Ea, Ewr).
    eapply back_step; [exact Hst|]. apply Hnone. by eapply idle_next. }
  destruct (decide (o_towrite (wdev s0) = 0)) as [Ez|Ez].
  { exfalso. assert (Hno : nothing_to_wait c (wdev s0)) by (split; auto).
    destruct (spin_exec denv c total k (waitForBytesWritten c None (write_next c total n k)) s0 s) as (p' & Hp & ->); try done; [by constructor|].
    destruct (spin_step c total k p' s0) as (p2 & _ & E); try done. congruence. }
  assert (Hst1 : step (set_co (CRun (waitForBytesWritten c None (write_next c total n k))) s0) = Next (set_co (CRun (written_impl c None (write_next c total n k))) s0)).
  { unfold step. cbn -[written_impl]. rewrite Hu, Ea, Ewr. cbn -[written_impl]. by rewrite (proj2 (Z.eqb_neq _ _) Ez). }
  pose proof (idle_next _ _ _ _ Hst1 Hx2 Hid) as Hx3. eapply back_step; [exact Hst1|]. clear Hx2 Hst1.
  destruct (written_or denv c _ s0 s Hc Hu Ea Hx3 Hid) as (p & [-> | ->] & Hy1 & Hy2); (eapply back_exec; [exact Hy1|]); [by apply Hnone|]. clear Hx3 Hy1.
  (* the wait *)
  destruct (helper_or denv (written_helper c) None (write_next c total n k) s0 s) as [(l' & Ht' & Hturn)|(s2 & lw & v & Hxx & Hx2 & [Hco2 Hg2 Ht2 Hw2 Hk2])]; try done.
  - (* not yet over *)
    assert (l' = l) as -> by (apply (app_inv_tail (wtrace s0)); congruence).
    destruct (reports_some l) as [b Hb]; [lia|]. destruct Hturn as (s' & x & v & Htu & [Hco' (Hcl' & Hu' & Hl') Ht2 Hw2 _]).
    { eapply relays_some; [exact Hb|]. intros d'. eauto. }
    right. destruct Hw2 as (lw & E & Hq & Hv). destruct v as [p|]; [|by destruct Hv as (? & ? & ? & _)]. injection E as E. destruct Hv as [_ Hv].
    assert (Hp : int_of p = reports l).
    { apply (first_value c (wdev s0)); [done| |done|].
      - assert (Hr : relays (written_helper c) (wdev s0) l ≠ []) by (eapply relays_some; [exact Hb|]; intros d'; eauto).
        assert (Hs : head (map snd (relays (written_helper c) (wdev s0) (x ++ l))) = Some p) by (rewrite E, relays_app; cbn; rewrite <- (Hv (written_direct c Hc)); reflexivity).
        rewrite relays_app in Hs. destruct (relays (written_helper c) (wdev s0) l); [done|exact Hs].
      - intros r Hin'. assert (Hi2 : TResume r ∈ lw ++ [TSusp FromHelper None]) by (rewrite <- E; apply elem_of_app; by right).
        apply elem_of_app in Hi2 as [Hi2|[? | ?%elem_of_nil]%elem_of_cons]; try done. by specialize (Hq _ Hi2). }
    exists (set_co (CRun (k (n + int_of p))) s'). split; [|left; by eexists]. eapply turns_trans; [exact Htu|]. eapply turns_step; [|constructor].
    unfold step. rewrite Hu', Hco'. unfold write_next. rewrite write_loop_eq. cbn. rewrite (proj2 (Z.ltb_ge _ _)) by lia. done.
  - (* over *)
    destruct (exec_grows _ _ _ Hx2) as [l2 Hl2]. rewrite Ht2, app_assoc in Hl2. rewrite Ht in Hl2. apply app_inv_tail in Hl2 as ->. apply in_time_app in Hin as [Hin2 Hinw].
    destruct (wait_value c (wdev s0) lw v Hc Hw2 Hinw) as (a & -> & Ha). rewrite reports_app in Htot.
    eapply back_exec; [exact Hxx|]. rewrite (set_co_same _ _ Hco2) in Hx2 |- *.
    apply (IH (m - 1)%nat) with (l := l2); try done.
    + rewrite Ht in Hm. rewrite !app_length in Hm. destruct Hw2 as (? & -> & _). cbn in Hm. lia.
    + rewrite Ht in Hm. rewrite Ht, Ht2. rewrite !app_length in *. destruct Hw2 as (? & -> & _). cbn in *. lia.
    + apply Hk2, Hh.
    + rewrite Ht, Ht2. by rewrite <- app_assoc.
    + lia.
Qed.

(** write() does return once as many bytes were reported as were accepted, if every report came while write() waited (not
    during QIODevice::write() itself, and not before the resumption by the signal before): for all devices, except a
    QNetworkReply, which cannot be written to. (Otherwise see C48.) *)
Theorem C120_returns denv (s0 : wstate) c wr total d1 ems :
  reach denv s0 -> wubs s0 = None -> noleak s0 -> walive s0 = true -> whelp s0 = None -> wr (wdev s0) = (total, d1, ems) -> c ≠ NetworkReply ->
  call_ends denv s0 (λ k : Z -> wprog, write c wr k)
    (λ l, ∃ l1, l = l1 ++ reverse (map (λ e, TEmit (fst e) (snd e)) ems) ++ [TDev d1] ∧ total <= reports l1 ∧ in_time c l1).
Proof.
  intros Hr Hu Hl Ha Hh Hw Hc k s l Hco Hx Hid Hus Ht (l1 & -> & Htot & Hin). pose proof (reach_clean _ _ _ Hr Hu Hco) as Hcl.
  set (s1 := wlogs (emitted_by ems) (wlog (TDev d1) (set_dev d1 s0))).
  assert (Hst : step s0 = Next (set_co (CRun (write_loop c total 0 k)) s1)).
  { unfold step. rewrite Hu, Hco. unfold write. rewrite Ha, Hw. cbn [fst snd]. rewrite emits_logged; [done|apply Hcl|done|done]. }
  pose proof (idle_next _ _ _ _ Hst Hx Hid) as Hx1. eapply back_step; [exact Hst|].
  eapply (write_loop_ends denv c total k Hc (length (wtrace s))); [lia| |exact Hh|exact Hx1|exact Hid|exact Hus| |exact Htot|exact Hin].
  - split; [|done]. destruct Hcl. by split.
  - rewrite Ht. unfold s1, wlogs. cbn. by rewrite <- !app_assoc.
Qed.
End write.
Print Assumptions C118_write.
Print Assumptions C120_returns.
Print Assumptions C118_complete.

(** ** Examples: a buffered device that writes some bytes and reports them *)
Definition writes : qobj -> list (sig * arg) -> qobj -> Prop :=
  λ d ems d', ∃ n, 0 <= n <= o_towrite d ∧ d' = to_write (o_towrite d - n) d ∧ ems = [(BytesWritten, AInt n)].
Lemma writes_truthful : truthful writes.
Proof.
  intros d ems d' (n & Hn & -> & ->). cbn. split; [lia|]. split; [|lia]. intros a [E|?%elem_of_nil]%elem_of_cons; [|done]. injection E as ->. cbn. lia.
Qed.
Definition queue_up (n : Z) : qobj -> Z * qobj * list (sig * arg) := λ d, (n, to_write (o_towrite d + n) d, []).
Example ex118_hyps : let s0 : @wstate qobj sig arg Z unit := winit device true (prog47 (queue_up 5)) in
  reach writes s0 ∧ wubs s0 = None ∧ noleak s0 ∧ walive s0 = true ∧ whelp s0 = None ∧ wtodo s0 = [] ∧ truthful writes ∧
  queue_up 5 (wdev s0) = (5, to_write 5 device, []) ∧ o_towrite (to_write 5 device) = 5.
Proof. cbv zeta. split; [apply (wplay_reach writes 0 []); allowed|]. split_and!; try done. apply writes_truthful. Qed.
Example ex118_run : let s := wplay 60 [EvDev (to_write 2 device) [(BytesWritten, AInt 3)]; EvPosted; EvDev (to_write 0 device) [(BytesWritten, AInt 2)]; EvPosted]
    (winit device true (prog47 (queue_up 5))) in
  reach writes s ∧ TObs 5 ∈ wtrace s ∧ o_towrite (wdev s) = 0.
Proof.
  cbv zeta. split; [|split; [vm_compute; in_|vm_compute; reflexivity]].
  apply wplay_reach. vm_compute. split_and!; try done; [exists 3|exists 2]; done.
Qed.

(** ** C119: when write() returns the number of bytes accepted, they were written (violated)

    Bytes of an earlier QIODevice::write() that are still in the write buffer are counted as well: three bytes are waiting,
    write() adds five; the device writes five and says so; write() returns 5, three of its bytes are still in the buffer. *)
Theorem C119_refuted : ∃ s0 s : @wstate qobj sig arg Z unit, truthful writes ∧ reach writes s0 ∧ exec writes s0 s ∧ wubs s = None ∧
  o_towrite (wdev s0) = 3 ∧ wco s0 = CRun (write IODevice (queue_up 5) (λ n, WObs n (WRet tt))) ∧
  wtrace s = [TRet tt; TObs 5; TResume (Some (AInt 5)); TReady (AInt 5); TEmit BytesWritten (AInt 5); TDev (to_write 3 device); TSusp FromHelper None; TDev (to_write 8 device)] ∧
  o_towrite (wdev s) = 3.
Proof.
  exists (winit (to_write 3 device) true (prog47 (queue_up 5))), (wplay 60 [EvDev (to_write 3 device) [(BytesWritten, AInt 5)]; EvPosted] (winit (to_write 3 device) true (prog47 (queue_up 5)))).
  split; [apply writes_truthful|]. split; [apply (wplay_reach writes 0 []); allowed|]. split.
  - apply wplay_exec; [|constructor]. vm_compute. split_and!; try done. by exists 5.
  - vm_compute. done.
Qed.
Print Assumptions C119_refuted.

(** C120: the two reports of ex118_run come in time; the two of C48_refuted do not. *)
Definition run120 : @wstate qobj sig arg Z unit := wplay 60 [EvDev (to_write 2 device) [(BytesWritten, AInt 3)]; EvPosted; EvDev (to_write 0 device) [(BytesWritten, AInt 2)]] (winit device true (prog47 (queue_up 5))).
Example ex120 : exec writes (winit device true (prog47 (queue_up 5))) run120 ∧ step run120 = Idle ∧ wubs run120 = None ∧
  ∃ l1, wtrace run120 = (l1 ++ [TDev (to_write 5 device)]) ++ [] ∧ 5 <= reports l1 ∧ in_time IODevice l1.
Proof.
  split_and!.
  - apply wplay_exec; [|constructor]. vm_compute. split_and!; try done; [exists 3|exists 2]; done.
  - vm_compute. reflexivity.
  - vm_compute. reflexivity.
  - exists [TReady (AInt 2); TEmit BytesWritten (AInt 2); TDev device; TSusp FromHelper None; TResume (Some (AInt 3)); TReady (AInt 3); TEmit BytesWritten (AInt 3); TDev (to_write 2 device); TSusp FromHelper None].
    split_and!; [vm_compute; reflexivity|by vm_compute|].
    intros l1 l2 l3 b sg a E _. destruct l1 as [|? [|? [|? [|? [|? [|? [|? [|? [|? l1]]]]]]]]]; try discriminate E.
    + destruct l2 as [|? [|? [|e l2]]]; try discriminate E. injection E as _ _ _ _ Ee _. exists (Some (AInt 3)). rewrite Ee. right. right. left.
    + exfalso. destruct l2 as [|? [|? l2]]; try discriminate E. destruct l2; discriminate E.
    + exfalso. destruct l1; discriminate E.
Qed.
