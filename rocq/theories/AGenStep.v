(** * The invariants of the AsyncGenerator machine hold in every reachable state. *)
From stdpp Require Import gmap list.
From Verif Require Import AGenModel AGenSpec AGenInv.

Section step.
Context {V E : Type}.
Notation state := (astate V E). Notation item := (aitem V E). Notation frame := (aframe V E).
Notation event := (aevent V E). Notation prog := (aprog V E).

Lemma inv_destroy f (s s' : state) g : AInv s -> agens s !! g = Some (Some f) -> adestroy f (aset_gens (delete g (agens s)) s) = ANext s' -> AInv s'.
Proof.
  intros (HH & HO & HP & HI) Hg. destruct (o_gh _ _ _ _ HO g f Hg) as (fr & Hf & Hpr). unfold adestroy. cbn. rewrite Hf.
  assert (Hgo : astat fr ≠ SRun -> AHI (delete f (aheap s)) (astack s) (AEDestroy f :: atrace s) (anf s)) by (intros; by eapply hi_destroy).
  assert (Hoi : AOI (delete f (aheap s)) (delete g (agens s)) (AEDestroy f :: atrace s) (ang s)) by (apply oi_tr; by apply oi_destroy).
  assert (Hii : AII (delete f (aheap s)) (aiters s) (AEDestroy f :: atrace s) (ani s)) by (apply ii_tr; [done|]; by apply ii_del).
  destruct (astat fr) as [b| |v ls p|pid safe ls c|f' ls c|i f' ls c|] eqn:Hs; try done; intros [= <-];
    (assert (HH' := Hgo ltac:(done))); pose proof (hi_legal_head _ _ _ _ _ HH') as Hl;
    (split; [apply (proj1 (hi_drops _ _ _ _ _)); try (destruct safe); exact HH'|]; split; [try (destruct safe); done|]; split; [|try (destruct safe); done]).
  all: try (by eapply pi_del; [done|rewrite Hs|..]).
  cbn. pose proof (pi_destroy_leaf _ _ _ _ _ _ _ _ _ _ Hf Hs Hl HP). by destruct safe.
Qed.

Lemma inv_drop g (s s' : state) : AInv s -> adrop g s = ANext s' -> AInv s'.
Proof.
  intros HI0. unfold adrop. destruct (agens s !! g) as [[f|]|] eqn:Hg; [| |done].
  - by apply inv_destroy.
  - intros [= <-]. destruct HI0 as (HH & HO & HP & HI). split; [done|]. split; [by apply oi_drop|done].
Qed.

Lemma inv_go c f j fc x p0 st (s s' : state) : astack s = ARun (Co c) p0 :: st -> AInv s -> aheap s !! c = Some fc ->
  sphase x = QWait f j -> (∀ i, j = Some i -> aiters s !! i = Some (Some f)) ->
  ago c f j (aset_frame c (fr_stat x fc) (aset_stack st s)) = ANext s' -> AInv s'.
Proof.
  intros Hst (HH & HO & HP & HI) Hc Hx Hj. rewrite Hst in HH. unfold ago. cbn.
  destruct (<[c:=fr_stat x fc]> (aheap s) !! f) as [fr|] eqn:Hf; [|done].
  assert (Hgo : ∀ p, astat fr = SInit p ∨ (∃ v ls, astat fr = SYield v ls p) ->
    AInv (apush (ARun (Co f) p) (aemit (AEAdv c f j) (aset_frame f (fr_stat SRun (fr_cons c fr)) (aset_frame c (fr_stat x fc) (aset_stack st s)))))).
  { intros p Hp. pose proof (hi_go _ _ _ _ _ _ _ _ _ _ _ _ HH Hc Hf Hx Hp) as HH'.
    pose proof (hi_legal_head _ _ _ _ _ HH') as Hl. pose proof Hl as (_ & Hne & _).
    assert (Hf0 : aheap s !! f = Some fr) by (by rewrite lookup_insert_ne in Hf).
    assert (Hrc : astat fc = SRun) by (apply (h_some _ _ _ _ _ _ HH Hc); left).
    split; [exact HH'|]. split; [|split]; cbn.
    - apply oi_tr. eapply oi_heap; [|exact HO]. eapply same_trans; [eapply (same_insert _ c fc (fr_stat x fc)); done|]. eapply same_insert; [exact Hf|done].
    - apply pi_tr; [done|]. eapply pi_ins; [exact Hf|by destruct Hp as [->|(? & ? & ->)]|done|].
      eapply pi_ins; [exact Hc|by rewrite Hrc|by destruct x|done].
    - apply ii_ins; [done|]. destruct x as [| | | | |i f' ls k|]; try done; cbn in Hx.
      + injection Hx as <- <-. apply ii_ins; [done|]. by apply ii_tr.
      + injection Hx as <- <-. apply ii_inc; [rewrite (Hj i); eauto|left|]. apply ii_tr; [|done]. intros ? ? ? [= <- <- <-]. by apply Hj. }
  destruct (astat fr) as [b| |v ls p|pid safe ls k|f' ls k|i f' ls k|] eqn:Hs; try done; intros [= <-]; apply Hgo; eauto.
Qed.

Lemma inv_back f fr fr' e r p st (s s' : state) : astack s = ARun (Co f) p :: st -> AInv s -> aheap s !! f = Some fr -> aprod fr = true ->
  stop_of f fr (match r with None => fr' | Some _ => fr_exc None fr' end) e
    (if anonnull fr' then OValue else match r with Some x => OExc x | None => OEnd end) -> aexc fr' = r ->
  (anonnull fr' = true -> r = None) ->
  aback f fr' (acons fr) (aemit e (aset_frame f fr' (aset_stack st s))) = ANext s' -> AInv s'.
Proof.
  intros Hst (HH & HO & HP & HI) Hf Hpr Hstop Hex Hnn. rewrite Hst in HH. unfold aback. cbn.
  destruct (acons fr) as [c|] eqn:Hco; [|done].
  destruct (decide (c = f)) as [->|Hne].
  { rewrite lookup_insert. intros Hb. exfalso.
    assert (Ha : ∀ r' : option E, astat (match r' with None => fr' | Some _ => fr_exc None fr' end) = astat fr') by (by intros []).
    specialize (Ha r). destruct Hstop as [(v & ls & p1 & -> & Hq & ?)|[(-> & Hq & ?)|(x & -> & Hq & ?)]];
      rewrite Hq in Ha; cbn in Ha; rewrite <- Ha in Hb; done. }
  rewrite lookup_insert_ne by done. destruct (aheap s !! c) as [fc|] eqn:Hc; [|done].
  set (o := if anonnull fr' then OValue else match r with Some x => OExc x | None => OEnd end) in *.
  assert (Ho : (if anonnull fr' then OValue else match aexc fr' with Some x => OExc x | None => OEnd end) = o) by (by rewrite Hex).
  rewrite Ho. set (fr1 := match r with None => fr' | Some _ => fr_exc None fr' end) in *.
  assert (Hh : aheap (match o with OExc _ => aset_frame f (fr_exc None fr') (aemit e (aset_frame f fr' (aset_stack st s))) | _ => aemit e (aset_frame f fr' (aset_stack st s)) end) = <[f := fr1]> (aheap s)).
  { unfold o, fr1. destruct (anonnull fr') eqn:Hn, r as [x|]; cbn; rewrite ?insert_insert; try done. by specialize (Hnn eq_refl). }
  assert (Hhf : fr1 = fr1) by done.
  set (s1 := match o with OExc _ => _ | _ => _ end) in *.
  assert (Hs1 : s1 = AState (<[f := fr1]> (aheap s)) (agens s) (aiters s) (apend s) st (e :: atrace s) (anf s) (ang s) (ani s) (anp s)).
  { rewrite <- Hh. unfold s1. by destruct o. }
  rewrite Hs1. cbn. rewrite lookup_insert_ne, Hc by done. clear Hs1 Hh s1 Ho Hhf.
  assert (Hrf : astat fr = SRun) by (apply (h_some _ _ _ _ _ _ HH Hf); left).
  assert (H1 : aprod fr1 = aprod fr ∧ leafy (astat fr1) = false ∧ ∀ i g ls k, astat fr1 ≠ SInc i g ls k).
  { destruct Hstop as [(v & ls & p1 & -> & -> & ?)|[(-> & -> & ?)|(x & -> & -> & ?)]]; done. }
  destruct H1 as (Hp1 & Hl1 & Hi1).
  assert (Hfin : ∀ i j p', sphase (astat fc) = QWait f j -> (j = None ∨ j = Some i) ->
     AHI (<[c := fr_stat SRun fc]> (<[f := fr1]> (aheap s))) (ARun (Co c) p' :: st) (AEBack c f i o :: e :: atrace s) (anf s) ∧
     AOI (<[c := fr_stat SRun fc]> (<[f := fr1]> (aheap s))) (agens s) (AEBack c f i o :: e :: atrace s) (ang s) ∧
     API (<[c := fr_stat SRun fc]> (<[f := fr1]> (aheap s))) (apend s) (AEBack c f i o :: e :: atrace s) (anp s) ∧
     AII (<[c := fr_stat SRun fc]> (<[f := fr1]> (aheap s))) (aiters s) (AEBack c f i o :: e :: atrace s) (ani s)).
  { intros i j p' Hw Hj.
    pose proof (hi_back _ _ _ _ _ _ _ _ _ _ _ _ p' _ _ HH Hf Hpr Hstop Hco Hc Hne Hw Hj) as HH'.
    pose proof (h_legal _ _ _ _ HH') as (Hl & Hl' & _).
    split; [done|]. split; [|split].
    - do 2 apply oi_tr. eapply oi_heap; [|exact HO]. eapply same_trans; [eapply (same_insert _ f fr fr1); done|].
      eapply (same_insert _ c fc); [rewrite lookup_insert_ne by done; exact Hc|done].
    - apply pi_tr; [done|]. apply pi_tr; [done|]. eapply pi_ins; [rewrite lookup_insert_ne by done; exact Hc| |done|].
      + by destruct (astat fc).
      + eapply pi_ins; [exact Hf|by rewrite Hrf|done|done].
    - apply ii_tr; [done|]. apply ii_tr; [by destruct Hstop as [(v & ls & p1 & -> & -> & ?)|[(-> & -> & ?)|(x & -> & -> & ?)]]|]. apply ii_ins; [done|]. by apply ii_ins. }
  destruct (astat fc) as [b| |v ls q|pid safe ls k|f' ls k|i f' ls k|] eqn:Hs; try done.
  - destruct (decide (f' = f)) as [->|]; [|done].
    assert (Hla : is_Some (last_adv f (AEBack c f (ani s) o :: e :: atrace s))).
    { destruct (Hfin (ani s) None ARet eq_refl (or_introl eq_refl)) as [HH' _].
      pose proof (h_legal _ _ _ _ HH') as ((_ & Hx & _) & _). apply adv_keep. rewrite Hx. eauto. }
    destruct o eqn:Ho; intros [= <-]; (destruct (Hfin (ani s) None (k (inl (ani s))) eq_refl (or_introl eq_refl)) as (A & B & C & D)).
    + split; [exact A|]. split; [exact B|]. split; [exact C|]. cbn. apply ii_new; [intros ? [= <-]; exact Hla|exact D].
    + split; [exact A|]. split; [exact B|]. split; [exact C|]. cbn. apply ii_new; [done|exact D].
    + split; [eapply hi_top; [|exact A]; done|]. split; [exact B|]. split; [exact C|exact D].
  - destruct (decide (f' = f)) as [->|]; [|done]. destruct (i_inc _ _ _ _ HI _ _ _ _ _ _ Hc Hs) as [Hit _].
    destruct o eqn:Ho; intros [= <-]; (destruct (Hfin i (Some i) (k None) eq_refl (or_intror eq_refl)) as (A & B & C & D)).
    + split; [exact A|]. split; [exact B|]. split; [exact C|exact D].
    + split; [exact A|]. split; [exact B|]. split; [exact C|]. cbn. by apply ii_end.
    + split; [eapply hi_top; [|exact A]; done|]. split; [exact B|]. split; [exact C|]. cbn. by apply ii_end.
Qed.

Lemma inv_user w p st (s s' : state) : astack s = ARun w p :: st -> AInv s -> astep_user w p (aset_stack st s) = ANext s' -> AInv s'.
Proof.
  intros Hst HI0. destruct (HI0) as (HH & HO & HP & HI). rewrite Hst in HH.
  assert (Hw : aruns w (atrace s)) by (eapply hi_runs; [exact HH|left]).
  assert (Hse : settled (atrace s)) by apply HH.
  assert (Hsw : ∀ p', AHI (aheap s) (ARun w p' :: st) (atrace s) (anf s)) by (intros p'; by eapply hi_top; [|exact HH]).
  assert (Hlq : ∀ a, (∀ f v, a ≠ XDeref f v) -> alegal (AEAct w a) (atrace s)).
  { intros a Ha. split; [by apply settled_legal1|]. split; [done|]. destruct a; try done. by destruct (Ha f v). }
  assert (Hexc : ∀ f fr, w = Co f -> aheap s !! f = Some fr -> astat fr = SRun ∧ aexc fr = None).
  { intros f fr -> Hf. destruct (h_some _ _ _ _ _ _ HH Hf) as (_ & _ & _ & [? _] & Ha). split; [|done]. apply Ha. left. }
  destruct p as [|e|o p|v ls p|safe ls c|b p|b c|c|g c|g g2 p|g g2 p|g p|g ls c|c|i c|i ls c|i c|i j c]; cbn.
  - destruct w as [f|n].
    + destruct (aheap s !! f) as [fr|] eqn:Hf; [|done]. destruct (Hexc f fr eq_refl Hf) as [Hr Hex]. destruct (aprod fr) eqn:Hpr.
      * rewrite Hex. eapply (inv_back f fr _ _ None); [done|done|done|done| |done|done]. right. left. cbn. by rewrite Hex.
      * intros [= <-]. pose proof (hi_end _ _ _ _ _ _ _ None HH Hf Hpr) as HH'. pose proof (hi_legal_head _ _ _ _ _ HH') as Hl.
        split; [done|]. split; [|split]; cbn.
        -- apply oi_tr. eapply oi_heap; [by eapply same_delete|done].
        -- eapply pi_del; [done|by rewrite Hr|done|done].
        -- apply ii_tr; [done|]. by apply ii_del.
    + intros [= <-]. split; [|done]. by eapply hi_pop.
  - destruct w as [f|n]; [|done]. destruct (aheap s !! f) as [fr|] eqn:Hf; [|done]. destruct (Hexc f fr eq_refl Hf) as [Hr Hex]. destruct (aprod fr) eqn:Hpr.
    + eapply (inv_back f fr _ _ (Some e)); [done|done|done|done| |done|done]. right. right. exists e. done.
    + intros [= <-]. pose proof (hi_end _ _ _ _ _ _ _ (Some e) HH Hf Hpr) as HH'. pose proof (hi_legal_head _ _ _ _ _ HH') as Hl.
      split; [done|]. split; [|split]; cbn.
      * apply oi_tr. eapply oi_heap; [by eapply same_delete|done].
      * eapply pi_del; [done|by rewrite Hr|done|done].
      * apply ii_tr; [done|]. by apply ii_del.
  - intros [= <-]. eapply inv_quiet; [done|done| |done]. split; [by apply settled_legal1|done].
  - destruct w as [f|n]; [|done]. destruct (aheap s !! f) as [fr|] eqn:Hf; [|done]. destruct (Hexc f fr eq_refl Hf) as [Hr Hex]. destruct (aprod fr) eqn:Hpr; [|done].
    rewrite Hex. eapply (inv_back f fr _ _ None); [done|done|done|done| |done|done]. left. exists v, ls, p. cbn. by rewrite Hex.
  - destruct w as [f|n]; [|done]. destruct (aheap s !! f) as [fr|] eqn:Hf; [|done]. destruct (Hexc f fr eq_refl Hf) as [Hr Hex]. intros [= <-].
    pose proof (hi_leaf _ _ _ _ _ _ _ (anp s) safe ls c HH Hf) as HH'. pose proof (hi_legal_head _ _ _ _ _ HH') as Hl.
    split; [done|]. split; [|split]; cbn.
    + apply oi_tr. eapply oi_heap; [by eapply same_insert|done].
    + apply pi_leaf; [done|by rewrite Hr|done|done].
    + apply ii_tr; [done|]. by apply ii_ins.
  - intros [= <-]. destruct (h_fresh _ _ _ _ HH (anf s)) as (Hn & Hp & _); [done|].
    pose proof (hi_spawn _ _ _ _ b (hi_quiet _ _ _ _ (AEAct w (XSpawn (anf s))) I (Hlq (XSpawn (anf s)) ltac:(done)) (Hsw p))) as HH'.
    pose proof (hi_legal_head _ _ _ _ _ HH') as Hl.
    split; [exact HH'|]. split; [|split]; cbn.
    + do 2 apply oi_tr. eapply oi_heap; [|done]. by apply same_insert_new.
    + apply pi_tr; [done|]. apply pi_tr; [by apply Hlq|]. apply pi_new; [done|congruence|done|done].
    + apply ii_tr; [done|]. apply ii_tr; [done|]. by apply ii_ins.
  - intros [= <-]. destruct (h_fresh _ _ _ _ HH (anf s)) as (Hn & Hp & _); [done|].
    pose proof (hi_new _ _ _ _ b (hi_quiet _ _ _ _ (AEAct w (XNew (ang s) (anf s))) I (Hlq (XNew (ang s) (anf s)) ltac:(done)) (Hsw (c (ang s))))) as HH'.
    pose proof (hi_legal_head _ _ _ _ _ HH') as Hl.
    split; [exact HH'|]. split; [|split]; cbn.
    + do 2 apply oi_tr. by apply oi_new.
    + apply pi_tr; [done|]. apply pi_tr; [by apply Hlq|]. apply pi_new; [done|congruence|done|done].
    + apply ii_tr; [done|]. apply ii_tr; [done|]. by apply ii_ins.
  - intros [= <-]. split; [cbn; apply hi_quiet; [done|by apply Hlq|done]|]. split; [|split]; cbn.
    + apply oi_tr. by apply oi_null. + apply pi_tr; [by apply Hlq|done]. + by apply ii_tr.
  - destruct (agens s !! g) as [h|] eqn:Hg; [|done]. intros [= <-]. split; [cbn; apply hi_quiet; [done|by apply Hlq|done]|]. split; [|split]; cbn.
    + apply oi_tr. by apply oi_move. + apply pi_tr; [by apply Hlq|done]. + by apply ii_tr.
  - destruct (agens s !! g) as [old|] eqn:Hg; [|done]. destruct (agens s !! g2) as [h|] eqn:Hg2; [|done]. intros [= <-].
    split; [cbn; apply hi_quiet; [done|by apply Hlq|done]|]. split; [|split]; cbn.
    + by apply oi_assign. + apply pi_tr; [by apply Hlq|done]. + by apply ii_tr.
  - destruct (agens s !! g) as [h|] eqn:Hg; [|done]. destruct (agens s !! g2) as [h2|] eqn:Hg2; [|done]. intros [= <-].
    split; [cbn; apply hi_quiet; [done|by apply Hlq|done]|]. split; [|split]; cbn.
    + apply oi_tr. by apply oi_swap. + apply pi_tr; [by apply Hlq|done]. + by apply ii_tr.
  - apply inv_drop. split; [cbn; apply hi_quiet; [done|by apply Hlq|done]|]. split; [|split]; cbn.
    + by apply oi_tr. + apply pi_tr; [by apply Hlq|done]. + by apply ii_tr.
  - destruct w as [c0|n]; [|done]. destruct (agens s !! g) as [[f|]|] eqn:Hg; [| |done].
    + destruct (aheap s !! c0) as [fr|] eqn:Hf; [|done]. eapply inv_go; [done|done|done|done|done].
    + intros [= <-]. split; [cbn; apply hi_quiet; [done|by apply Hlq|done]|]. split; [|split]; cbn.
      * by apply oi_tr. * apply pi_tr; [by apply Hlq|done]. * apply ii_tr; [done|]. by apply ii_new.
  - intros [= <-]. split; [cbn; apply hi_quiet; [done|by apply Hlq|done]|]. split; [|split]; cbn.
    + by apply oi_tr. + apply pi_tr; [by apply Hlq|done]. + apply ii_tr; [done|]. by apply ii_new.
  - destruct (aiters s !! i) as [h|] eqn:Hi; [|done]. intros [= <-]. split; [cbn; apply hi_quiet; [done|by apply Hlq|done]|]. split; [|split]; cbn.
    + by apply oi_tr. + apply pi_tr; [by apply Hlq|done].
    + apply ii_tr; [done|]. apply ii_new; [|done]. intros f ->. by eapply i_adv.
  - destruct w as [c0|n]; [|done]. destruct (aiters s !! i) as [[f|]|] eqn:Hi; [|done|done].
    destruct (aheap s !! c0) as [fr|] eqn:Hf; [|done]. eapply inv_go; [done|done|done|done|]. intros ? [= <-]. done.
  - destruct (aiters s !! i) as [[f|]|] eqn:Hi; [|done|done]. destruct (aheap s !! f) as [fr|] eqn:Hf; [|done].
    destruct (anonnull fr) eqn:Hnn; [|done]. destruct (astat fr) as [| |v ls p| | | |] eqn:Hs; try done. intros [= <-].
    eapply inv_quiet; [done|done| |done]. split; [by apply settled_legal1|]. split; [done|].
    by rewrite (proj1 (h_some _ _ _ _ _ _ HH Hf)), Hs.
  - destruct (aiters s !! i) as [h|] eqn:Hi; [|done]. destruct (aiters s !! j) as [h'|] eqn:Hj; [|done].
    intros [= <-]. eapply inv_quiet; [done|done|by apply Hlq|done].
Qed.

Lemma inv_step (s s' : state) : AInv s -> astep s = ANext s' -> AInv s'.
Proof.
  intros HI0. unfold astep. destruct (astack s) as [|[w p|[|g l]] st] eqn:Hst; [done|..].
  - by apply inv_user.
  - intros [= <-]. destruct HI0 as (HH & ?). split; [|done]. rewrite Hst in HH. cbn. by apply hi_drops in HH.
  - apply inv_drop. destruct HI0 as (HH & ?). split; [|done]. rewrite Hst in HH. cbn.
    apply (proj2 (hi_drops _ _ _ _ _)) in HH. by apply (proj1 (hi_drops _ l _ _ _)).
Qed.

Lemma inv_env e (s s' : state) : AInv s -> aenv_step e s = ANext s' -> AInv s'.
Proof.
  intros (HH & HO & HP & HI). unfold aenv_step. destruct (astack s) eqn:Hst; [|done]. destruct e as [p|pid v].
  - intros [= <-]. split; [|done]. cbn. by apply hi_call.
  - destruct (apend s !! pid) as [f|] eqn:Hp; [|done]. destruct (aheap s !! f) as [fr|] eqn:Hf; [|done].
    destruct (astat fr) as [| | |pid' safe ls c| | |] eqn:Hs; try done. destruct (decide (pid' = pid)) as [->|]; [|done].
    intros [= <-]. pose proof (hi_fire _ _ _ _ _ _ _ _ _ v (c v) HH Hf Hs) as HH'. pose proof (hi_legal_head _ _ _ _ _ HH') as Hl.
    split; [cbn; rewrite Hst; exact HH'|]. split; [|split]; cbn.
    + apply oi_tr. eapply oi_heap; [by eapply same_insert|done].
    + eapply pi_fire; [exact Hf|exact Hs|done|done|done].
    + apply ii_tr; [done|]. by apply ii_ins.
Qed.

Lemma inv_init : AInv (ainit : state).
Proof.
  split; [|split; [|split]]; split; cbn; try done.
  - intros g. unfold pt. cbn. split; [by left|by intros ?%elem_of_nil].
  - constructor.
  - intros ? [? ?]. done.
  - intros ? [? ?]. done.
  - intros ? [? ?]. done.
  - intros ? ? ? ?%elem_of_nil. done.
Qed.

Lemma inv_exec (s s' : state) : AInv s -> aexec s s' -> AInv s'.
Proof. intros HI0. induction 1; [done|eapply inv_step; [|eassumption]; auto|eapply inv_env; [|eassumption]; auto]. Qed.
Lemma inv_reach (s : state) : areach s -> AInv s.
Proof. apply inv_exec, inv_init. Qed.
Lemma reach_exec (s s' : state) : areach s -> aexec s s' -> areach s'.
Proof. intros HR. induction 1; [done|eapply aexec_step; [by apply IHaexec|eassumption]|eapply aexec_env; [by apply IHaexec|eassumption]]. Qed.
Lemma reach_legal (s : state) : areach s -> alegal_trace (atrace s).
Proof. intros HR. apply (h_legal _ _ _ _ (proj1 (inv_reach s HR))). Qed.
End step.
