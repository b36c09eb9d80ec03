(** * What one step can do to a waiting coroutine and to an iterator. *)
From stdpp Require Import gmap list.
From Verif Require Import AGenModel AGenSpec AGenInv AGenStep AGenFacts.

Section wait.
Context {V E : Type}.
Notation state := (astate V E). Notation item := (aitem V E). Notation frame := (aframe V E).
Notation event := (aevent V E). Notation prog := (aprog V E).

Definition waits (x : astatus V E) : bool := match x with SBegin _ _ _ | SInc _ _ _ _ | SLeaf _ _ _ _ => true | _ => false end.

(** One step of the machine or of the environment. *)
Definition anext (s s' : state) : Prop := astep s = ANext s' ∨ ∃ e, aenv_step e s = ANext s'.
Lemma inv_next (s s' : state) : AInv s -> anext s s' -> AInv s'.
Proof. intros HI [H|[e H]]; [by eapply inv_step|by eapply inv_env]. Qed.
Lemma reach_next (s s' : state) : areach s -> anext s s' -> areach s'.
Proof. intros HI [H|[e H]]; [by eapply aexec_step|by eapply aexec_env]. Qed.

(** [w]'s co_await of begin()/++ on [f] completes: what it gets and what its iterator is. *)
Definition back_to (w f : nat) (fw : frame) (s s' : state) : Prop :=
  ∃ i x o st, atrace s' = AEBack w f i o :: x :: atrace s ∧ out_of f x = Some o ∧
  match astat fw with
  | SBegin f' ls k => f' = f ∧ i = ani s ∧
      astack s' = ARun (Co w) (k (match o with OExc x => inr x | _ => inl i end)) :: st ∧
      aiters s' = match o with OValue => <[i := Some f]> (aiters s) | OEnd => <[i := None]> (aiters s) | OExc _ => aiters s end
  | SInc i' f' ls k => f' = f ∧ i' = i ∧
      astack s' = ARun (Co w) (k (match o with OExc x => Some x | _ => None end)) :: st ∧
      aiters s' = match o with OValue => aiters s | _ => <[i := None]> (aiters s) end
  | _ => False
  end.

(** The step does not concern [w]: [w]'s phase is the same at each event of the step. *)
Definition quiet_for (w : nat) (s s' : state) : Prop :=
  ∃ evs, atrace s' = evs ++ atrace s ∧ ∀ l1 e l2, evs = l1 ++ e :: l2 -> aphase_of w (l2 ++ atrace s) = aphase_of w (atrace s).
Lemma qf0 w (s s' : state) : atrace s' = atrace s -> quiet_for w s s'.
Proof. intros H. exists []. split; [done|]. by intros [] ? ? ?. Qed.
Lemma qf1 w (s s' : state) e : atrace s' = e :: atrace s -> quiet_for w s s'.
Proof. intros H. exists [e]. split; [done|]. intros [|x [|]] e' l2 [=]; by subst. Qed.
Lemma qf2 w (s s' : state) e e' : atrace s' = e :: e' :: atrace s -> aphase_of w (e' :: atrace s) = aphase_of w (atrace s) -> quiet_for w s s'.
Proof. intros H H2. exists [e; e']. split; [done|]. intros [|x [|y [|]]] e2 l2 [=]; by subst. Qed.

Lemma stop_phase w f (e : event) l o : out_of f e = Some o -> w ≠ f -> aphase_of w (e :: l) = aphase_of w l.
Proof. intros Ho Hne. destruct e; cbn in Ho |- *; try done; destruct (decide _); try done; subst; by rewrite decide_False. Qed.

Definition waits_on (w : nat) (fw : frame) (s s' : state) : Prop :=
  (aheap s' !! w = Some fw ∧ quiet_for w s s') ∨
  AEDestroy w ∈ atrace s' ∨
  (∃ f, back_to w f fw s s') ∨
  (∃ pid safe ls c v, astat fw = SLeaf pid safe ls c ∧ atrace s' = AEFire w v :: atrace s ∧ astack s' = [ARun (Co w) (c v)] ∧ aiters s' = aiters s).

Lemma wo_destroy w fw f (s0 s s' : state) : aheap s !! w = Some fw -> atrace s = atrace s0 ∨ (∃ w' a, atrace s = AEAct w' a :: atrace s0) -> adestroy f s = ANext s' -> waits_on w fw s0 s'.
Proof.
  intros Hw He. unfold adestroy. destruct (aheap s !! f) as [fr|] eqn:Hf; [|done].
  destruct (decide (w = f)) as [<-|Hne].
  - intros Hs. right. left. destruct (astat fr) as [| | |pid [] ls c| | |]; try done; injection Hs as <-; left.
  - intros Hs. left.
    assert (Hq : aheap s' !! w = Some fw ∧ atrace s' = AEDestroy f :: atrace s).
    { destruct (astat fr) as [| | |pid [] ls c| | |]; try done; injection Hs as <-; cbn; by rewrite lookup_delete_ne. }
    destruct Hq as [? Hq]. split; [done|]. destruct He as [He|(w' & a & He)]; rewrite He in Hq; [by eapply qf1|by eapply qf2].
Qed.
Lemma wo_drop w fw g (s0 s s' : state) : aheap s !! w = Some fw -> atrace s = atrace s0 ∨ (∃ w' a, atrace s = AEAct w' a :: atrace s0) -> adrop g s = ANext s' -> waits_on w fw s0 s'.
Proof.
  intros Hw He. unfold adrop. destruct (agens s !! g) as [[f|]|] eqn:Hg; [| |done].
  - by eapply wo_destroy.
  - intros [= <-]. left. split; [done|]. destruct He as [He|(w' & a & He)]; [by apply qf0|by eapply qf1].
Qed.

Lemma wo_go w fw c f j (s0 s s' : state) : aheap s !! w = Some fw -> waits (astat fw) = true -> atrace s = atrace s0 -> ago c f j s = ANext s' -> waits_on w fw s0 s'.
Proof.
  intros Hw Hww He. unfold ago. destruct (aheap s !! f) as [fr|] eqn:Hf; [|done].
  destruct (decide (w = f)) as [<-|Hne].
  { assert (fr = fw) as -> by congruence. by destruct (astat fw). }
  intros Hs. left. destruct (astat fr); try done; injection Hs as <-; cbn; rewrite lookup_insert_ne by done; (split; [done|]); eapply qf1; cbn; by rewrite He.
Qed.

Lemma wo_back w fw f fr' oc e (s0 s s' : state) : aheap s !! w = Some fw -> w ≠ f -> waits (astat fw) = true -> atrace s = e :: atrace s0 ->
  out_of f e = Some (if anonnull fr' then OValue else match aexc fr' with Some x => OExc x | None => OEnd end) -> aheap s !! f = Some fr' ->
  aiters s = aiters s0 -> ani s = ani s0 -> aback f fr' oc s = ANext s' -> waits_on w fw s0 s'.
Proof.
  intros Hw Hne Hww He Ho Hf Hit Hni. unfold aback. destruct oc as [c|]; [|done]. destruct (aheap s !! c) as [cf|] eqn:Hc; [|done].
  set (o := if anonnull fr' then _ else _) in *.
  set (s1 := match o with OExc _ => _ | _ => _ end).
  assert (H1 : aheap s1 !! w = Some fw ∧ aheap s1 !! c = (match o with OExc _ => if decide (c = f) then Some (fr_exc None fr') else Some cf | _ => Some cf end) ∧
    atrace s1 = atrace s ∧ aiters s1 = aiters s ∧ ani s1 = ani s ∧ astack s1 = astack s).
  { unfold s1. destruct o; cbn; try done. rewrite lookup_insert_ne by done. split; [done|]. split; [|done].
    destruct (decide (c = f)) as [->|]; [by rewrite lookup_insert|by rewrite lookup_insert_ne]. }
  destruct H1 as (Hw1 & Hc1 & Ht1 & Hi1 & Hn1 & Hst1). clearbody s1. clearbody o.
  destruct (decide (c = w)) as [->|Hcw].
  - assert (cf = fw) as -> by congruence. rewrite Hw1. intros Hs. right. right. left.
    exists f. unfold back_to. destruct (astat fw) as [| | | |f' ls k|i f' ls k|]; try done; (destruct (decide (f' = f)) as [->|]; [|done]).
    + exists (ani s), e, o. destruct o; injection Hs as <-; cbn; rewrite ?Ht1, ?He, ?Hi1, ?Hit, ?Hn1, ?Hst1; exists (astack s); done.
    + exists i, e, o. destruct o; injection Hs as <-; cbn; rewrite ?Ht1, ?He, ?Hi1, ?Hit, ?Hn1, ?Hst1; exists (astack s); done.
  - intros Hs. left.
    assert (Hx : ∃ cf', aheap s1 !! c = Some cf').
    { rewrite Hc1. destruct o; [eauto..|]. destruct (decide _); eauto. }
    destruct Hx as [cf' Hx]. rewrite Hx in Hs.
    destruct (astat cf) as [| | | |f' ls k|i f' ls k|]; try done; (destruct (decide (f' = f)) as [->|]; [|done]);
      destruct o; injection Hs as <-; cbn; rewrite lookup_insert_ne by done; (split; [done|]); (eapply qf2; [cbn; by rewrite Ht1, He|by eapply stop_phase]).
Qed.

Lemma wait_step w fw (s s' : state) : AInv s -> anext s s' -> aheap s !! w = Some fw -> waits (astat fw) = true -> waits_on w fw s s'.
Proof.
  intros (HH & HO & HP & HI) Hn Hw Hww.
  assert (Hnw : ∀ f fr, Co f ∈ acts (astack s) -> aheap s !! f = Some fr -> w ≠ f).
  { intros f fr Hin Hf ->. assert (fr = fw) as -> by congruence.
    assert (Hr : astat fw = SRun) by (by apply (h_some _ _ _ _ _ _ HH Hf)). by rewrite Hr in Hww. }
  assert (Hnf : w ≠ anf s).
  { intros ->. assert (anf s < anf s) by (eapply h_nf; [done|eauto]). lia. }
  destruct Hn as [Hs|[e Hs]].
  - unfold astep in Hs. destruct (astack s) as [|[w' p|[|g l]] st] eqn:Hst; [done|..].
    + assert (Hin : ∀ f, w' = Co f -> Co f ∈ acts (ARun w' p :: st)) by (intros f ->; left).
      destruct p as [|e|o p|v ls p|safe ls c|b p|b c|c|g c|g g2 p|g g2 p|g p|g ls c|c|i c|i ls c|i c|i j c]; cbn in Hs.
      * destruct w' as [f|n].
        -- destruct (aheap s !! f) as [fr|] eqn:Hf; [|done]. pose proof (Hnw f fr (Hin f eq_refl) Hf) as Hne. destruct (aprod fr).
           ++ eapply wo_back in Hs; [exact Hs|by cbn; rewrite lookup_insert_ne|done|done|done| |by cbn; rewrite lookup_insert|done|done].
              cbn. rewrite decide_True by done. destruct (h_some _ _ _ _ _ _ HH Hf) as (_ & _ & _ & [-> _] & _). done.
           ++ injection Hs as <-. left. cbn. rewrite lookup_delete_ne by done. split; [done|]. by eapply qf1.
        -- injection Hs as <-. left. split; [done|]. by apply qf0.
      * destruct w' as [f|n]; [|done].
        destruct (aheap s !! f) as [fr|] eqn:Hf; [|done]. pose proof (Hnw f fr (Hin f eq_refl) Hf) as Hne. destruct (aprod fr).
        -- eapply wo_back in Hs; [exact Hs|by cbn; rewrite lookup_insert_ne|done|done|done| |by cbn; rewrite lookup_insert|done|done].
           cbn. by rewrite decide_True.
        -- injection Hs as <-. left. cbn. rewrite lookup_delete_ne by done. split; [done|]. by eapply qf1.
      * injection Hs as <-. left. split; [done|]. by eapply qf1.
      * destruct w' as [f|n]; [|done].
        destruct (aheap s !! f) as [fr|] eqn:Hf; [|done]. pose proof (Hnw f fr (Hin f eq_refl) Hf) as Hne. destruct (aprod fr); [|done].
        eapply wo_back in Hs; [exact Hs|by cbn; rewrite lookup_insert_ne|done|done|done| |by cbn; rewrite lookup_insert|done|done].
        cbn. by rewrite decide_True.
      * destruct w' as [f|n]; [|done]. destruct (aheap s !! f) as [fr|] eqn:Hf; [|done]. pose proof (Hnw f fr (Hin f eq_refl) Hf) as Hne.
        injection Hs as <-. left. cbn. rewrite lookup_insert_ne by done. split; [done|]. by eapply qf1.
      * injection Hs as <-. left. cbn. rewrite lookup_insert_ne by done. split; [done|]. by eapply qf2.
      * injection Hs as <-. left. cbn. rewrite lookup_insert_ne by done. split; [done|]. by eapply qf2.
      * injection Hs as <-. left. split; [done|]. by eapply qf1.
      * destruct (agens s !! g); [|done]. injection Hs as <-. left. split; [done|]. by eapply qf1.
      * destruct (agens s !! g); [|done]. destruct (agens s !! g2); [|done]. injection Hs as <-. left. split; [done|]. by eapply qf1.
      * destruct (agens s !! g); [|done]. destruct (agens s !! g2); [|done]. injection Hs as <-. left. split; [done|]. by eapply qf1.
      * eapply wo_drop in Hs; [exact Hs|done|]. right. by eexists _, _.
      * destruct w' as [f|n]; [|done]. destruct (agens s !! g) as [[f'|]|]; [| |done].
        -- destruct (aheap s !! f) as [fr|] eqn:Hf; [|done]. pose proof (Hnw f fr (Hin f eq_refl) Hf) as Hne.
           eapply wo_go in Hs; [exact Hs|by cbn; rewrite lookup_insert_ne|done|done].
        -- injection Hs as <-. left. split; [done|]. by eapply qf1.
      * injection Hs as <-. left. split; [done|]. by eapply qf1.
      * destruct (aiters s !! i); [|done]. injection Hs as <-. left. split; [done|]. by eapply qf1.
      * destruct w' as [f|n]; [|done]. destruct (aiters s !! i) as [[f'|]|]; [|done|done].
        destruct (aheap s !! f) as [fr|] eqn:Hf; [|done]. pose proof (Hnw f fr (Hin f eq_refl) Hf) as Hne.
        eapply wo_go in Hs; [exact Hs|by cbn; rewrite lookup_insert_ne|done|done].
      * destruct (aiters s !! i) as [[f'|]|]; [|done|done]. destruct (aheap s !! f') as [fr|]; [|done]. destruct (anonnull fr); [|done].
        destruct (astat fr); try done. injection Hs as <-. left. split; [done|]. by eapply qf1.
      * destruct (aiters s !! i); [|done]. destruct (aiters s !! j); [|done]. injection Hs as <-. left. split; [done|]. by eapply qf1.
    + injection Hs as <-. left. split; [done|]. by apply qf0.
    + eapply wo_drop in Hs; [exact Hs|done|]. by left.
  - unfold aenv_step in Hs. destruct (astack s) eqn:Hst; [|done]. destruct e as [p|pid v].
    + injection Hs as <-. left. split; [done|]. by apply qf0.
    + destruct (apend s !! pid) as [f|] eqn:Hp; [|done]. destruct (aheap s !! f) as [fr|] eqn:Hf; [|done].
      destruct (astat fr) as [| | |pid' safe ls c| | |] eqn:Hsf; try done. destruct (decide (pid' = pid)) as [->|]; [|done].
      injection Hs as <-. destruct (decide (w = f)) as [<-|Hne].
      * assert (fr = fw) as -> by congruence. right. right. right. exists pid, safe, ls, c, v. cbn. by rewrite Hst.
      * left. cbn. rewrite lookup_insert_ne by done. split; [done|]. by eapply qf1.
Qed.

(** Iterators: unchanged, or set to end() by a completed ++ on it. *)
Definition iter_keeps (i : nat) (s s' : state) : Prop :=
  aiters s' !! i = aiters s !! i ∨ (aiters s' !! i = Some None ∧ ∃ c f o x, AEAdv c f (Some i) ∈ atrace s ∧ atrace s' = AEBack c f i o :: x :: atrace s).

Lemma ik_destroy i f (s0 s s' : state) : aiters s = aiters s0 -> adestroy f s = ANext s' -> iter_keeps i s0 s'.
Proof.
  intros Hi. unfold adestroy. destruct (aheap s !! f) as [fr|]; [|done]. left.
  destruct (astat fr) as [| | |pid [] ls c| | |]; try done; simplify_eq; cbn; by rewrite Hi.
Qed.
Lemma ik_drop i g (s0 s s' : state) : aiters s = aiters s0 -> adrop g s = ANext s' -> iter_keeps i s0 s'.
Proof.
  intros Hi. unfold adrop. destruct (agens s !! g) as [[f|]|] eqn:Hg; [| |done].
  - by eapply ik_destroy.
  - intros [= <-]. left. cbn. by rewrite Hi.
Qed.
Lemma ik_go i c f j (s0 s s' : state) : aiters s = aiters s0 -> ago c f j s = ANext s' -> iter_keeps i s0 s'.
Proof.
  intros Hi. unfold ago. destruct (aheap s !! f) as [fr|] eqn:Hf; [|done]. left. destruct (astat fr); try done; simplify_eq; cbn; by rewrite Hi.
Qed.
Lemma ik_back i f fr' oc e (s0 s s' : state) : is_Some (aiters s0 !! i) -> AInv s0 -> (∀ c, c ≠ f -> aheap s !! c = aheap s0 !! c) ->
  waits (astat fr') = false -> aheap s !! f = Some fr' -> atrace s = e :: atrace s0 -> aiters s = aiters s0 -> ani s = ani s0 ->
  aback f fr' oc s = ANext s' -> iter_keeps i s0 s'.
Proof.
  intros Hi0 (HH & HO & HP & HI) Hheap Hw Hf He Hit Hni. unfold aback. destruct oc as [c|]; [|done]. destruct (aheap s !! c) as [cf|] eqn:Hc; [|done].
  set (o := if anonnull fr' then _ else _) in *.
  set (s1 := match o with OExc _ => _ | _ => _ end).
  assert (H1 : (∃ cf', aheap s1 !! c = Some cf') ∧ atrace s1 = atrace s ∧ aiters s1 = aiters s ∧ ani s1 = ani s).
  { unfold s1. destruct o; cbn; eauto. split; [|done]. destruct (decide (f = c)) as [->|]; [rewrite lookup_insert|rewrite lookup_insert_ne by done]; eauto. }
  destruct H1 as ([cf' Hc1] & Ht1 & Hi1 & Hn1). clearbody s1. clearbody o. rewrite Hc1.
  assert (Hlt : i ≠ ani s0). { intros ->. apply (i_ni _ _ _ _ HI) in Hi0. lia. }
  destruct (astat cf) as [| | | |f' ls k|i' f' ls k|] eqn:Hs; try done; (destruct (decide (f' = f)) as [->|]; [|done]).
  - intros Hq. left. destruct o; injection Hq as <-; cbn; rewrite ?Hi1, ?Hit, ?Hn1, ?Hni; try done; by rewrite lookup_insert_ne.
  - assert (Hcf : c ≠ f). { intros ->. assert (cf = fr') as -> by congruence. by rewrite Hs in Hw. }
    rewrite Hheap in Hc by done. destruct (i_inc _ _ _ _ HI _ _ _ _ _ _ Hc Hs) as [_ Hadv].
    destruct (decide (i = i')) as [<-|Hne].
    + intros Hq. destruct o; injection Hq as <-; [left; cbn; by rewrite Hi1, Hit| |]; right; cbn; rewrite lookup_insert; (split; [done|]);
        exists c, f; eexists _, e; rewrite Ht1, He; done.
    + intros Hq. left. destruct o; injection Hq as <-; cbn; rewrite ?Hi1, ?Hit; try done; by rewrite lookup_insert_ne.
Qed.

Lemma iter_step i (s s' : state) : AInv s -> anext s s' -> is_Some (aiters s !! i) -> iter_keeps i s s'.
Proof.
  intros HInv Hn Hi. pose proof HInv as (HH & HO & HP & HI).
  assert (Hlt : i ≠ ani s). { intros ->. apply (i_ni _ _ _ _ HI) in Hi. lia. }
  assert (Hkeep : ∀ s2 : state, aiters s2 = aiters s -> iter_keeps i s s2) by (intros s2 Hs2; left; by rewrite Hs2).
  assert (Hnew : ∀ h (s2 : state), aiters s2 = <[ani s := h]> (aiters s) -> iter_keeps i s s2) by (intros h s2 Hs2; left; by rewrite Hs2, lookup_insert_ne).
  destruct Hn as [Hs|[e Hs]].
  - unfold astep in Hs. destruct (astack s) as [|[w' p|[|g l]] st] eqn:Hst; [done|..].
    + destruct p as [|e|o p|v ls p|safe ls c|b p|b c|c|g c|g g2 p|g g2 p|g p|g ls c|c|j c|j ls c|j c|j j2 c]; cbn in Hs.
      * destruct w' as [f|n]; [|injection Hs as <-; by apply Hkeep].
        destruct (aheap s !! f) as [fr|] eqn:Hf; [|done]. destruct (aprod fr); [|injection Hs as <-; by apply Hkeep].
        eapply ik_back in Hs; [exact Hs|done|done| |done|by cbn; rewrite lookup_insert|done|done|done]. intros c Hc. cbn. by rewrite lookup_insert_ne.
      * destruct w' as [f|n]; [|done].
        destruct (aheap s !! f) as [fr|] eqn:Hf; [|done]. destruct (aprod fr); [|injection Hs as <-; by apply Hkeep].
        eapply ik_back in Hs; [exact Hs|done|done| |done|by cbn; rewrite lookup_insert|done|done|done]. intros c Hc. cbn. by rewrite lookup_insert_ne.
      * injection Hs as <-. by apply Hkeep.
      * destruct w' as [f|n]; [|done]. destruct (aheap s !! f) as [fr|] eqn:Hf; [|done]. destruct (aprod fr); [|done].
        eapply ik_back in Hs; [exact Hs|done|done| |done|by cbn; rewrite lookup_insert|done|done|done]. intros c Hc. cbn. by rewrite lookup_insert_ne.
      * destruct w' as [f|n]; [|done]. destruct (aheap s !! f) as [fr|] eqn:Hf; [|done]. injection Hs as <-. by apply Hkeep.
      * injection Hs as <-. by apply Hkeep.
      * injection Hs as <-. by apply Hkeep.
      * injection Hs as <-. by apply Hkeep.
      * destruct (agens s !! g); [|done]. injection Hs as <-. by apply Hkeep.
      * destruct (agens s !! g); [|done]. destruct (agens s !! g2); [|done]. injection Hs as <-. by apply Hkeep.
      * destruct (agens s !! g); [|done]. destruct (agens s !! g2); [|done]. injection Hs as <-. by apply Hkeep.
      * by eapply ik_drop in Hs.
      * destruct w' as [f|n]; [|done]. destruct (agens s !! g) as [[f'|]|]; [| |done].
        -- destruct (aheap s !! f) as [fr|] eqn:Hf; [|done]. by eapply ik_go in Hs.
        -- injection Hs as <-. by eapply Hnew.
      * injection Hs as <-. by eapply Hnew.
      * destruct (aiters s !! j); [|done]. injection Hs as <-. by eapply Hnew.
      * destruct w' as [f|n]; [|done]. destruct (aiters s !! j) as [[f'|]|]; [|done|done].
        destruct (aheap s !! f) as [fr|] eqn:Hf; [|done]. by eapply ik_go in Hs.
      * destruct (aiters s !! j) as [[f'|]|]; [|done|done]. destruct (aheap s !! f') as [fr|]; [|done]. destruct (anonnull fr); [|done].
        destruct (astat fr); try done. injection Hs as <-. by apply Hkeep.
      * destruct (aiters s !! j); [|done]. destruct (aiters s !! j2); [|done]. injection Hs as <-. by apply Hkeep.
    + injection Hs as <-. by apply Hkeep.
    + by eapply ik_drop in Hs.
  - unfold aenv_step in Hs. destruct (astack s) eqn:Hst; [|done]. destruct e as [p|pid v].
    + injection Hs as <-. by apply Hkeep.
    + destruct (apend s !! pid) as [f|] eqn:Hp; [|done]. destruct (aheap s !! f) as [fr|] eqn:Hf; [|done].
      destruct (astat fr) as [| | |pid' safe ls c| | |] eqn:Hsf; try done. destruct (decide (pid' = pid)) as [->|]; [|done].
      injection Hs as <-. by apply Hkeep.
Qed.
End wait.
