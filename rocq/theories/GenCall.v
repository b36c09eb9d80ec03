(** * Call structure of the Generator machine: begin()/++ run the body to its next co_yield or to its end. *)
From stdpp Require Import gmap list.
From Verif Require Import GenModel GenSpec GenInv GenFacts GenLoop GenFacts2.

Section call.
Context {V E : Type}.
Notation state := (gstate V E). Notation item := (gitem V E). Notation frame := (gframe V E).
Notation event := (gevent V E). Notation prog := (gprog V E unit). Notation pos := (gpos V E).

Definition stops (x : item) (pre : list item) (f : nat) : nat :=
  match x, pre with GRun (Gen g) _, [] => if decide (f = g) then 1 else 0 | _, _ => 0 end.

(** A step replaces the topmost item. *)
Definition top (x : item) (rest : list item) (s s' : state) : Prop :=
  ∃ pre evs, gstack s' = pre ++ rest ∧ gtrace s' = evs ++ gtrace s ∧ (∀ f, gsum (is_stop f) evs = stops x pre f) ∧
    (pre = [] ∨ ∃ l y, pre = l ++ [y] ∧ item_actor y = item_actor x) ∧
    (∀ l y w i c l', pre = l ++ y :: GAfterInc w i c :: l' ->
      ∃ f, item_actor y = Some (Gen f) ∧ iters s' !! i = Some (Some f) ∧ ∃ fr, gheap s !! f = Some fr ∧ gstat fr ≠ GRunning) ∧
    (∀ w i c l', pre = GAfterInc w i c :: l' -> False).

Lemma top_intro x rest (s s' : state) pre evs : gstack s' = pre ++ rest -> gtrace s' = evs ++ gtrace s ->
  (pre = [] ∨ ∃ l y, pre = l ++ [y] ∧ item_actor y = item_actor x) ->
  (∀ l y w i c l', pre = l ++ y :: GAfterInc w i c :: l' ->
      ∃ f, item_actor y = Some (Gen f) ∧ iters s' !! i = Some (Some f) ∧ ∃ fr, gheap s !! f = Some fr ∧ gstat fr ≠ GRunning) ->
  (∀ w i c l', pre = GAfterInc w i c :: l' -> False) ->
  (∀ f, gsum (is_stop f) evs = stops x pre f) -> top x rest s s'.
Proof. intros. by exists pre, evs. Qed.
Ltac top_ pre evs := refine (top_intro _ _ _ _ pre evs _ _ _ _ _ _);
  [done|done|try (by left); right; by (eexists [], _) || by (eexists [_], _)
  |intros [|? [|? [|? ?]]] ? ? ? ? ? Hq; cbn in Hq; by simplify_eq|done|try done].

Lemma sum_app h (l1 l2 : list event) : gsum h (l1 ++ l2) = gsum h l1 + gsum h l2.
Proof. induction l1; cbn; [done|]. lia. Qed.

Lemma top_drop x rest g (s0 s s' : state) it l : gdrop g s = GNext s' -> gstack s = it :: rest -> gtrace s = l ++ gtrace s0 ->
  (∀ f, gsum (is_stop f) l = 0) -> (∀ f p, x ≠ GRun (Gen f) p ∨ True) -> item_actor it = item_actor x -> (∀ w i c, it ≠ GAfterInc w i c) ->
  top x rest s0 s'.
Proof.
  intros Hd Hst Ht Hl _ Ha Hni. unfold top. unfold gdrop, gdestroy in Hd. destruct (gens s !! g) as [[f|]|]; [| |done].
  - cbn in Hd. destruct (gheap s !! f) as [fr|]; [|done].
    destruct (gstat fr); try done; injection Hd as <-; cbn; rewrite Hst, Ht;
      (eexists [_; _], (GEDestroy f :: l); split; [done|]; split; [done|]; split; [intros f'; cbn; rewrite Hl; by destruct x as [[]| | |]|]; split; [right; by eexists [_], _|]; split;
       [intros [|? [|? [|? ?]]] ? ? ? ? ? Hq; cbn in Hq; simplify_eq; by edestruct Hni|done]).
  - injection Hd as <-. exists [it], l. cbn. rewrite Hst, Ht. split; [done|]. split; [done|]. split.
    { intros f. rewrite Hl. by destruct x as [[]| | |]. }
    split; [right; by eexists [], _|]. split; [intros [|? [|? ?]] ? ? ? ? ? Hq; cbn in Hq; by simplify_eq|].
    intros w i c l' [= Hq _]. by destruct (Hni w i c).
Qed.

Lemma top_step (s s' : state) x rest : gstack s = x :: rest -> gstep s = GNext s' -> top x rest s s'.
Proof.
  intros Hst Hstep. unfold gstep in Hstep. rewrite Hst in Hstep. destruct x as [w p|w g c|w i c|[|g l]].
  - destruct p as [u|e|o p|v ls c|b c|c|g c|g g2 p|g p|g c|c|i c|i c|i c|i v p|i j c]; cbn in Hstep.
    + destruct w as [f|n].
      * destruct (gheap s !! f) as [fr|]; [|done]. injection Hstep as <-. top_ (@nil item) [@GEFinish V E f None].
        intros f'. cbn. by destruct (decide _).
      * injection Hstep as <-. top_ (@nil item) (@nil event).
    + destruct w as [f|n]; [|done]. destruct (gheap s !! f) as [fr|]; [|done]. injection Hstep as <-. top_ (@nil item) [@GEFinish V E f (Some e)].
      intros f'. cbn. by destruct (decide _).
    + injection Hstep as <-. top_ [GRun w p] [@GEObs V E w o]. intros f. by destruct w.
    + destruct w as [f|n]; [|done]. destruct (gheap s !! f) as [fr|]; [|done]. injection Hstep as <-. top_ (@nil item) [@GEYield V E f v].
      intros f'. cbn. by destruct (decide _).
    + injection Hstep as <-. top_ [GRun w (c (gng s))] [GENew (gnf s) b; GEAct w (ANew (gng s) (gnf s))]. intros f. by destruct w.
    + injection Hstep as <-. top_ [GRun w (c (gng s))] [@GEAct V E w (ANull (gng s))]. intros f. by destruct w.
    + destruct (gens s !! g) as [h|]; [|done]. injection Hstep as <-. top_ [GRun w (c (gng s))] [@GEAct V E w (AMove (gng s))]. intros f. by destruct w.
    + destruct (gens s !! g) as [h|]; [|done]. destruct (gens s !! g2); [|done]. injection Hstep as <-. top_ [GRun w p] [@GEAct V E w (AAssign h)]. intros f. by destruct w.
    + eapply (top_drop _ _ g s _ _ (GRun w p) [_]); [exact Hstep|done|done|done|by right|done|done].
    + destruct (gens s !! g) as [[f|]|] eqn:Hg; try done. unfold gresume in Hstep. cbn in Hstep. destruct (gheap s !! f) as [fr|] eqn:Hf; [|done].
      destruct (gstat fr) eqn:Hs; try done; injection Hstep as <-;
        (eexists [_; _], [_]; split; [done|]; split; [done|]; split; [intros f'; by destruct w|]; split; [right; by eexists [_], _|]; split;
          [intros [|? [|? [|? ?]]] ? ? ? ? ? Hq; cbn in Hq; by simplify_eq|done]).
    + injection Hstep as <-. top_ [GRun w (c (gni s))] [@GEAct V E w (AEnd (gni s))]. intros f. by destruct w.
    + destruct (iters s !! i) as [h|]; [|done]. injection Hstep as <-. top_ [GRun w (c (gni s))] [@GEAct V E w (ACopy (gni s))]. intros f. by destruct w.
    + destruct (iters s !! i) as [[f|]|] eqn:Hi; try done.
      * unfold gresume in Hstep. cbn in Hstep. destruct (gheap s !! f) as [fr|] eqn:Hf; [|done].
        destruct (gstat fr) eqn:Hs; try done; injection Hstep as <-;
        (eexists [_; _], [_]; split; [done|]; split; [done|]; split; [intros f'; by destruct w|]; split; [right; by eexists [_], _|]; split;
          [intros [|? [|? [|? ?]]] ? ? ? ? ? Hq; cbn in Hq; simplify_eq; exists f; split; [done|]; split; [done|]; exists fr; split; [done|congruence]|done]).
      * injection Hstep as <-. top_ [GRun w (c None)] [@GEAct V E w (AInc None)]. intros f. by destruct w.
    + destruct (iters s !! i) as [[f|]|]; try done. destruct (gvalue f _) as [v|]; [|done]. injection Hstep as <-. top_ [GRun w (c v)] [@GEAct V E w (ADeref f v)]. intros f'. by destruct w.
    + destruct (iters s !! i) as [[f|]|]; try done. destruct (gheap s !! f) as [fr|]; [|done]. destruct (gnonnull fr); [|done].
      destruct (gstat fr); try done. injection Hstep as <-. top_ [GRun w p] [@GEAct V E w (AWrite f v)]. intros f'. by destruct w.
    + destruct (iters s !! i) as [h|]; [|done]. destruct (iters s !! j) as [h'|]; [|done]. injection Hstep as <-.
      top_ [GRun w (c (bool_decide (h = h')))] [@GEAct V E w (AEq (bool_decide (h = h')))]. intros f'. by destruct w.
  - destruct (gens s !! g) as [[f|]|]; try done. destruct (gheap s !! f) as [fr|]; [|done].
    destruct (gnonnull fr); [|destruct (gexc fr)]; injection Hstep as <-;
      (eexists [_], [_]; split; [done|]; split; [done|]; split; [done|]; split; [right; by eexists [], _|split; [intros [|? [|? [|? ?]]] ? ? ? ? ? Hq; cbn in Hq; by simplify_eq|done]]).
  - destruct (iters s !! i) as [[f|]|]; try done. destruct (gheap s !! f) as [fr|]; [|done].
    destruct (gnonnull fr); injection Hstep as <-;
      (eexists [_], [_]; split; [done|]; split; [done|]; split; [done|]; split; [right; by eexists [], _|split; [intros [|? [|? [|? ?]]] ? ? ? ? ? Hq; cbn in Hq; by simplify_eq|done]]).
  - injection Hstep as <-. top_ (@nil item) (@nil event).
  - eapply (top_drop _ _ g s _ _ (GDrops l) []); [exact Hstep|done|done|done|by right|done|done].
Qed.

(** ** One co_yield (or the end) per resumption *)
Lemma during_one f base p (s1 s2 : state) : greach s1 -> gstack s1 = GRun (Gen f) p :: base -> gduring base s1 s2 ->
  greach s2 ∧
  ((gstack s2 = base ∧ gsum (is_stop f) (gtrace s2) = S (gsum (is_stop f) (gtrace s1))) ∨
   ((∃ l y, gstack s2 = l ++ y :: base ∧ item_actor y = Some (Gen f)) ∧ gsum (is_stop f) (gtrace s2) = gsum (is_stop f) (gtrace s1))).
Proof.
  intros HR Hst. induction 1 as [s|s s1 s2 H1 IH Hne Hs].
  { split; [done|]. right. split; [|done]. exists [], (GRun (Gen f) p). done. }
  destruct (IH HR Hst) as [HR1 [[? _]|[(l & y & Hl & Hy) Hc]]]; [done|]. split; [by eapply gexec_step|].
  destruct l as [|x l].
  - cbn in Hl. destruct (top_step _ _ _ _ Hl Hs) as (pre & evs & Hst2 & Htr & Hcnt & Hpre & _). rewrite Htr, sum_app, Hcnt, Hc.
    destruct Hpre as [-> |(l & z & -> & Hz)].
    + cbn in Hst2. left. split; [done|]. destruct y as [w' p'|w' g c|w' i c|]; cbn in Hy; try done; injection Hy as ->; cbn.
      * by rewrite decide_True.
      * exfalso. unfold gstep in Hs. rewrite Hl in Hs.
        destruct (gens s1 !! g) as [[f'|]|]; try done. destruct (gheap s1 !! f') as [fr|]; [|done].
        assert (Hlen : length (gstack s2) = S (length base)) by (destruct (gnonnull fr); [|destruct (gexc fr)]; by injection Hs as <-).
        rewrite Hst2 in Hlen. lia.
      * exfalso. unfold gstep in Hs. rewrite Hl in Hs.
        destruct (iters s1 !! i) as [[f'|]|]; try done. destruct (gheap s1 !! f') as [fr|]; [|done].
        assert (Hlen : length (gstack s2) = S (length base)) by (destruct (gnonnull fr); by injection Hs as <-).
        rewrite Hst2 in Hlen. lia.
    + right. split.
      * exists l, z. rewrite Hst2, <- app_assoc. split; [done|]. by rewrite Hz.
      * unfold stops. destruct y as [[]| | |]; try done. by destruct l.
  - cbn in Hl. destruct (top_step _ _ _ _ Hl Hs) as (pre & evs & Hst2 & Htr & Hcnt & Hpre & _). rewrite Htr, sum_app, Hcnt, Hc.
    right. split.
    + exists (pre ++ l), y. by rewrite Hst2, <- app_assoc.
    + destruct (inv_reach _ HR1) as [HH _]. pose proof (h_nd _ _ _ _ HH) as Hnd. rewrite Hl in Hnd.
      unfold stops. destruct x as [[g|n] p'| | |]; try done. destruct pre; [|done]. destruct (decide (f = g)) as [<-|]; [|done].
      exfalso. rewrite actors_cons in Hnd. cbn in Hnd. inversion Hnd as [|? ? Hni _]. apply Hni.
      apply elem_of_list_omap. exists y. split; [|done]. apply elem_of_app. right. left.
Qed.

(** ** The iterator being incremented stays bound to the body it runs *)
Record AI (s : state) : Prop := {
  a_bound : ∀ i, is_Some (iters s !! i) -> i < gni s;
  a_adj : ∀ pre y w i c st, gstack s = pre ++ y :: GAfterInc w i c :: st -> ∃ f, item_actor y = Some (Gen f) ∧ iters s !! i = Some (Some f);
  a_top : ∀ w i c st, gstack s = GAfterInc w i c :: st -> ∃ f fr, iters s !! i = Some (Some f) ∧ gheap s !! f = Some fr ∧ gstat fr ≠ GRunning;
}.

(** How the iterators change in a step. *)
Definition itchange (s s' : state) : Prop :=
  (iters s' = iters s ∧ gni s' = gni s) ∨ (∃ h, iters s' = <[gni s := h]> (iters s) ∧ gni s' = S (gni s)) ∨
  (∃ w i c st, gstack s = GAfterInc w i c :: st ∧ iters s' = <[i := None]> (iters s) ∧ gni s' = gni s).
Lemma it_resume f (s s' : state) : gresume f s = GNext s' -> iters s' = iters s ∧ gni s' = gni s.
Proof. unfold gresume. destruct (gheap s !! f) as [fr|]; [|done]. destruct (gstat fr); try done; by intros [= <-]. Qed.
Lemma it_drop g (s s' : state) : gdrop g s = GNext s' -> iters s' = iters s ∧ gni s' = gni s.
Proof.
  unfold gdrop, gdestroy. destruct (gens s !! g) as [[f|]|]; [| |done].
  - cbn. destruct (gheap s !! f) as [fr|]; [|done]. destruct (gstat fr); try done; by intros [= <-].
  - by intros [= <-].
Qed.
Lemma it_step (s s' : state) : gstep s = GNext s' -> itchange s s'.
Proof.
  intros Hstep. unfold gstep in Hstep. destruct (gstack s) as [|[w p|w k c|w i c|[|k l]] st] eqn:Hst; [done|..].
  - destruct p as [u|e|o p|v ls c|b c|c|k c|k k2 p|k p|k c|c|i c|i c|i c|i v p|i j c]; cbn in Hstep.
    9:{ left. exact (it_drop _ _ _ Hstep). }
    9:{ destruct (gens s !! k) as [[f'|]|]; try done. left. exact (it_resume _ _ _ Hstep). }
    11:{ destruct (iters s !! i) as [[f'|]|]; try done; left; [exact (it_resume _ _ _ Hstep)|by injection Hstep as <-]. }
    9:{ injection Hstep as <-. right. left. by exists None. }
    9:{ destruct (iters s !! i) as [h|]; [|done]. injection Hstep as <-. right. left. by exists h. }
    all: left; repeat match type of Hstep with
      | context [match ?x with _ => _ end] => destruct x; try done
      end; by injection Hstep as <-.
  - destruct (gens s !! k) as [[f|]|]; try done. destruct (gheap s !! f) as [fr|]; [|done].
    destruct (gnonnull fr); [|destruct (gexc fr)]; injection Hstep as <-; [|by left|]; right; left; eexists; done.
  - destruct (iters s !! i) as [[f|]|]; try done. destruct (gheap s !! f) as [fr|]; [|done].
    destruct (gnonnull fr); injection Hstep as <-; [by left|]. right. right. rewrite Hst. eexists _, _, _, _. done.
  - injection Hstep as <-. by left.
  - left. exact (it_drop _ _ _ Hstep).
Qed.

(** A body that left the stack is not running. *)
Lemma popped_not_running f fr (s : state) : Inv s -> gheap s !! f = Some fr -> Gen f ∉ gactors (gstack s) -> gstat fr ≠ GRunning.
Proof. intros [HH _] Hf Hn Hr. by apply Hn, (h_run _ _ _ _ HH f fr). Qed.

Lemma ai_step (s s' : state) : Inv s -> gstep s = GNext s' -> AI s -> AI s'.
Proof.
  intros HI0 Hs HA. pose proof (it_step _ _ Hs) as Hit. pose proof (inv_step _ _ HI0 Hs) as HI1.
  destruct (gstack s) as [|x rest] eqn:Hst; [by unfold gstep in Hs; rewrite Hst in Hs|].
  destruct (top_step _ _ _ _ Hst Hs) as (pre & evs & Hst2 & Htr & Hcnt & Hpre & Hin & Hnt).
  (* iterators mentioned strictly inside the old stack keep their value *)
  assert (Hkeep : ∀ l y w i c st f, x :: rest = l ++ y :: GAfterInc w i c :: st -> item_actor y = Some (Gen f) ->
    iters s !! i = Some (Some f) -> iters s' !! i = Some (Some f)).
  { intros l y w i c st f Hq Hy Hi. destruct Hit as [[-> _]|[(h & -> & _)|(w' & i' & c' & st' & Hq2 & -> & _)]]; [done| |].
    - rewrite lookup_insert_ne; [done|]. assert (i < gni s) by (apply (a_bound _ HA); eauto). lia.
    - destruct (a_top _ HA _ _ _ _ Hq2) as (f' & fr & Hi' & Hf' & Hnr). rewrite lookup_insert_ne; [done|]. intros ->.
      assert (f' = f) as -> by congruence. apply Hnr. destruct HI0 as [HH _].
      destruct (h_act _ _ _ _ HH f) as (fr' & ? & ?); [|congruence]. rewrite Hst, Hq.
      apply elem_of_list_omap. exists y. split; [|done]. apply elem_of_app. right. left. }
  split.
  - intros i Hi. destruct Hit as [[Hq ->]|[(h & Hq & ->)|(w' & i' & c' & st' & Hq2 & Hq & ->)]]; rewrite Hq in Hi.
    + by apply (a_bound _ HA).
    + destruct (decide (gni s = i)) as [<-|]; [lia|]. rewrite lookup_insert_ne in Hi by done. assert (i < gni s) by (by apply (a_bound _ HA)). lia.
    + destruct (decide (i' = i)) as [->|].
      * destruct (a_top _ HA _ _ _ _ Hq2) as (f' & fr & Hi' & _). apply (a_bound _ HA). eauto.
      * rewrite lookup_insert_ne in Hi by done. by apply (a_bound _ HA).
  - intros l y w i c st Hl. rewrite Hst2 in Hl.
    (* is the pair inside pre, across, or inside rest? *)
    apply app_eq_inv in Hl as [(k & Hk & Hk2)|(k & Hk & Hk2)].
    + destruct k as [|y' [|z k]].
      * cbn in Hk2. rewrite app_nil_r in Hk. subst l.
        assert (Hq : x :: rest = [x] ++ y :: GAfterInc w i c :: st) by (by rewrite <- Hk2).
        destruct (a_adj _ HA [x] y w i c st) as (f & Hy & Hi); [by rewrite Hst|]. exists f. split; [done|]. by eapply Hkeep.
      * cbn in Hk2. injection Hk2 as <- Hr.
        destruct Hpre as [-> |(l0 & z & Hz & Hact)]; [by destruct l|].
        rewrite Hz in Hk. apply app_inj_tail in Hk as [_ ->].
        destruct (a_adj _ HA [] x w i c st) as (f & Hy & Hi); [by rewrite Hst, <- Hr|]. exists f. split; [congruence|].
        eapply (Hkeep [] x); [|done..]. by rewrite <- Hr.
      * injection Hk2 as <- <- Hr. destruct (Hin l y w i c k Hk) as (f & Hy & Hi & _). eauto.
    + assert (Hq : x :: rest = (x :: k) ++ y :: GAfterInc w i c :: st) by (by rewrite Hk2).
      destruct (a_adj _ HA (x :: k) y w i c st) as (f & Hy & Hi); [by rewrite Hst|]. exists f. split; [done|]. by eapply Hkeep.
  - intros w i c st Hq. rewrite Hst2 in Hq. destruct pre as [|z pre].
    + cbn in Hq. destruct (a_adj _ HA [] x w i c st) as (f & Hx & Hi); [by rewrite Hst, Hq|].
      exists f. assert (Hi' : iters s' !! i = Some (Some f)). { eapply (Hkeep [] x); [|done..]. by rewrite Hq. }
      destruct (HI0) as [HH HO]. destruct (HI1) as [HH1 HO1].
      (* the body's frame still exists: it was running *)
      assert (Hph : gphase_of f (gtrace s') = QSusp ∨ gphase_of f (gtrace s') = QFin).
      { assert (Hc1 : gsum (is_stop f) (gtrace s') = S (gsum (is_stop f) (gtrace s))).
        { rewrite Htr, sum_app, Hcnt. destruct x as [w0 p0|w0 g0 c0|w0 i0 c0|l0]; cbn in Hx; simplify_eq; cbn.
          - by rewrite decide_True.
          - exfalso. unfold gstep in Hs. rewrite Hst in Hs.
            destruct (gens s !! g0) as [[f'|]|]; try done. destruct (gheap s !! f') as [fr|]; [|done].
            assert (Hlen : length (gstack s') = S (S (length st))) by (destruct (gnonnull fr); [|destruct (gexc fr)]; by injection Hs as <-).
            rewrite Hst2 in Hlen. cbn in Hlen. lia.
          - exfalso. unfold gstep in Hs. rewrite Hst in Hs.
            destruct (iters s !! i0) as [[f'|]|]; try done. destruct (gheap s !! f') as [fr|]; [|done].
            assert (Hlen : length (gstack s') = S (S (length st))) by (destruct (gnonnull fr); by injection Hs as <-).
            rewrite Hst2 in Hlen. cbn in Hlen. lia. }
        destruct x as [w0 p0| | |]; cbn in Hx; simplify_eq.
        2-3: exfalso; rewrite Htr, sum_app, Hcnt in Hc1; cbn in Hc1; lia.
        unfold gstep in Hs. rewrite Hst in Hs. destruct (h_act _ _ _ _ HH f) as (fr & Hf & Hr); [rewrite Hst; left|].
        destruct p0; cbn in Hs;
          try (rewrite Hf in Hs; injection Hs as <-; cbn; rewrite decide_True by done; by auto);
          exfalso; revert Hst2; unfold gdrop, gdestroy, gresume in Hs; cbn in Hs;
           repeat match type of Hs with
            | context [match ?x with _ => _ end] => destruct x; try done
            end; injection Hs as <-; cbn; intros Hx; apply (f_equal length) in Hx; cbn in Hx; lia. }
      destruct (gheap s' !! f) as [fr|] eqn:Hf.
      * exists fr. split; [done|]. split; [done|]. intros Hr. rewrite (h_some _ _ _ _ HH1 f fr Hf), Hr in Hph. by destruct Hph.
      * exfalso. destruct (h_none _ _ _ _ HH1 f Hf) as [Hx1|Hx1]; rewrite Hx1 in Hph; by destruct Hph.
    + exfalso. cbn in Hq. injection Hq as -> _. eapply Hnt. reflexivity.
Qed.

Lemma ai_reach (s : state) : greach s -> AI s.
Proof.
  intros HR. unfold greach in HR. remember ginit as s0 eqn:E0.
  induction HR as [s|s s1 s2 H1 IH Hs|s s1 s2 p H1 IH Hc]; subst.
  - split; cbn; try done.
    + intros i [? Hi]. by rewrite lookup_empty in Hi.
    + by intros [].
  - assert (HR1 : greach s1) by exact H1. eapply ai_step; [by apply inv_reach|done|by apply IH].
  - unfold gcall in Hc. destruct (gstack s1) eqn:Hst; [|done]. injection Hc as <-. destruct (IH eq_refl). split; cbn; [done| |done].
    by intros [|? [|? ?]].
Qed.

(** ** Exceptions reach the ++ that ran into them *)
Lemma throw_inc f x w i c st (s : state) : greach s -> gstack s = GRun (Gen f) (GThrow x) :: GAfterInc w i c :: st ->
  ∃ s', gsteps s s' ∧ gstack s' = GRun w (c (Some x)) :: st ∧ iters s' !! i = Some None ∧
    gtrace s' = GEAct w (AInc (Some x)) :: GEFinish f (Some x) :: gtrace s.
Proof.
  intros HR Hst. destruct (a_adj _ (ai_reach _ HR) [] (GRun (Gen f) (GThrow x)) w i c st) as (f' & Hf' & Hi); [done|].
  injection Hf' as <-. destruct (inv_reach _ HR) as [HH _]. destruct (h_act _ _ _ _ HH f) as (fr & Hf & _); [rewrite Hst; left|].
  eexists. split.
  { eapply gsteps_cons. { unfold gstep. rewrite Hst. cbn. rewrite Hf. reflexivity. }
    apply gsteps_one. unfold gstep. cbn. rewrite Hi, lookup_insert. cbn. reflexivity. }
  cbn. split; [done|]. split; [by rewrite lookup_insert|done].
Qed.
Lemma throw_begin f x w g c st (s : state) : greach s -> gstack s = GRun (Gen f) (GThrow x) :: GAfterBegin w g c :: st ->
  gens s !! g = Some (Some f) ->
  ∃ s', gsteps s s' ∧ gstack s' = GRun w (c (inr x)) :: st ∧ gtrace s' = GEAct w (ABegin (inr x)) :: GEFinish f (Some x) :: gtrace s.
Proof.
  intros HR Hst Hg. destruct (inv_reach _ HR) as [HH _]. destruct (h_act _ _ _ _ HH f) as (fr & Hf & _); [rewrite Hst; left|].
  eexists. split.
  { eapply gsteps_cons. { unfold gstep. rewrite Hst. cbn. rewrite Hf. reflexivity. }
    apply gsteps_one. unfold gstep. cbn. rewrite Hg, lookup_insert. cbn. reflexivity. }
  done.
Qed.
End call.
