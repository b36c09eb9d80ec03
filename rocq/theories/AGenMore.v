(** * Further facts: the loop is well defined, plain producers, exceptions. *)
From stdpp Require Import gmap list.
From Verif Require Import AGenModel AGenSpec AGenInv AGenStep AGenFacts AGenWait AGenLoop AGenOwn AGenWalk.

Section more.
Context {V E : Type}.
Notation state := (astate V E). Notation item := (aitem V E). Notation frame := (aframe V E).
Notation event := (aevent V E). Notation prog := (aprog V E).

Lemma wait_not_top w fw (s : state) p st : AInv s -> aheap s !! w = Some fw -> astat fw ≠ SRun -> astack s ≠ ARun (Co w) p :: st.
Proof.
  intros (HH & _) Hw Hs Hst. apply Hs. apply (h_some _ _ _ _ _ _ HH Hw). rewrite Hst. left.
Qed.
Lemma yield_frame f v (s : state) : AInv s -> aphase_of f (atrace s) = QYield v ->
  ∃ fr ls p, aheap s !! f = Some fr ∧ astat fr = SYield v ls p ∧ anonnull fr = true.
Proof.
  intros (HH & _) Hp. destruct (aheap s !! f) as [fr|] eqn:Hf.
  - pose proof (h_some _ _ _ _ _ _ HH Hf) as (Hx & _ & _ & [_ Ho] & _). rewrite Hp in Hx.
    destruct (astat fr) as [| |v' ls p| | | |] eqn:Hs; try done. injection Hx as ->. eauto 10.
  - destruct (h_none _ _ _ _ _ HH Hf) as [[(Hx & _)|Hx] _]; congruence.
Qed.
Lemma init_frame f (s : state) : AInv s -> aphase_of f (atrace s) = QInit -> ∃ fr b, aheap s !! f = Some fr ∧ astat fr = SInit b.
Proof.
  intros (HH & _) Hp. destruct (aheap s !! f) as [fr|] eqn:Hf.
  - pose proof (h_some _ _ _ _ _ _ HH Hf) as (Hx & _). rewrite Hp in Hx. destruct (astat fr) eqn:Hs; try done. eauto.
  - destruct (h_none _ _ _ _ _ HH Hf) as [[(Hx & _)|Hx] _]; congruence.
Qed.

(** The next step of the looping coroutine is well defined. *)
Lemma loop_defined w f g ls body k G0 (s : state) p st : areach s -> loop_at w f g ls body k G0 s -> astack s = ARun (Co w) p :: st ->
  ∃ s', astep s = ANext s'.
Proof.
  intros HR Hat Hst0. pose proof (inv_reach _ HR) as HI. pose proof HI as (HH & HO & HP & HIt).
  assert (Hrun : ∃ fw, aheap s !! w = Some fw ∧ astat fw = SRun) by (apply (h_act _ _ _ _ w HH); rewrite Hst0; left).
  destruct Hrun as (fw0 & Hw0 & Hr0). pose proof (h_some _ _ _ _ _ _ HH Hw0) as [Hp0 _]. rewrite Hr0 in Hp0. cbn in Hp0.
  assert (Hgo : ∀ x0 j s1, (∃ fr, aheap s !! f = Some fr ∧ ((∃ b, astat fr = SInit b) ∨ ∃ v ls p, astat fr = SYield v ls p)) -> w ≠ f ->
     aheap s1 = <[w := fr_stat x0 fw0]> (aheap s) -> ∃ s', ago w f j s1 = ANext s').
  { intros x0 j s1 (fr & Hf & Hs) Hne Hh. unfold ago. rewrite Hh, lookup_insert_ne, Hf by done.
    destruct Hs as [[b ->]|(v & ls' & q & ->)]; eauto. }
  assert (Hyne : ∀ v, aphase_of f (atrace s) = QYield v -> w ≠ f) by (intros v Hv ->; congruence).
  assert (Hyf : ∀ v, aphase_of f (atrace s) = QYield v -> ∃ fr, aheap s !! f = Some fr ∧ ((∃ b, astat fr = SInit b) ∨ ∃ v ls p, astat fr = SYield v ls p)).
  { intros v Hv. destruct (yield_frame f v s HI Hv) as (fr & ls' & q & ? & ? & _). eauto 10. }
  destruct Hat as [st' Hst Hg Hpi Hsy|fw Hw Hs Hsy|i st' Hst Hi|i e st' Hst He Hi|i e st' v Hst He Hi Hp Hv|i e st' v Hst He Hi Hp Hv|i e st' v l Hst He Hi Hp Hsy
    |i e v l fw pid sf Hw Hs He Hi Hp Hsy|i e fw Hw Hs He Hi Hsy].
  - unfold astep. rewrite Hst. cbn. rewrite Hg, Hw0. eapply Hgo; [|intros ->; congruence|done].
    destruct (init_frame f s HI Hpi) as (fr & b & ? & ?). eauto.
  - exfalso. by eapply (wait_not_top w fw s); [| | |exact Hst0]; [done|done|rewrite Hs].
  - unfold astep. rewrite Hst. cbn. eauto.
  - unfold astep. rewrite Hst, loop_head. cbn. destruct Hi as [[-> _]|[-> _]]; rewrite He; eauto.
  - unfold astep. rewrite Hst. cbn. rewrite Hi. destruct (yield_frame f v s HI Hp) as (fr & ls' & q & -> & -> & ->). eauto.
  - unfold astep. rewrite Hst. cbn. eauto.
  - unfold astep. rewrite Hst. destruct l as [|[n|sf] l].
    + rewrite loop_inc. cbn. rewrite Hi, Hw0. eapply Hgo; eauto.
    + rewrite loop_obs. cbn. eauto.
    + rewrite loop_leaf. cbn. rewrite Hw0. eauto.
  - exfalso. by eapply (wait_not_top w fw s); [| | |exact Hst0]; [done|done|rewrite Hs].
  - exfalso. by eapply (wait_not_top w fw s); [| | |exact Hst0]; [done|done|rewrite Hs].
Qed.

(** An ended walk does not go on. *)
Lemma walk_end (x0 x : apos V E) l r : awalk x0 l x -> LEnd r ∈ l -> x = CEnd.
Proof.
  induction 1 as [|l x e y Hw IH Ha]; [by intros ?%elem_of_nil|]. intros [<-|Hin]%elem_of_cons; [by inversion Ha|].
  rewrite (IH Hin) in Ha. inversion Ha.
Qed.
Lemma plain_yields (s : state) f b vs r : areach s -> AENew f b ∈ atrace s -> ayields b vs r ->
  ayielded f (atrace s) `prefix_of` vs ∧ (∀ r', AEFinish f r' ∈ atrace s -> ayielded f (atrace s) = vs ∧ r' = r).
Proof.
  intros HR Hn Hy. destruct (wi_reach s HR f (CStart b)) as (x & Hw & _); [left; eauto|].
  pose proof (walk_yields _ _ _ vs r (yl_start _ _ _ Hy) Hw) as Hx. rewrite proj_yielded in Hx. split.
  - destruct Hx as [(vs' & -> & _)|(-> & _)]; [by eexists|done].
  - intros r' Hf. assert (Hm : made f (atrace s) = true) by (apply made_new; eauto).
    apply (end_finish f (atrace s) r' (reach_legal _ HR) Hm) in Hf. pose proof (walk_end _ _ _ _ Hw Hf) as Hxe.
    destruct Hx as [(vs' & _ & Hx)|(Hvs & _ & l' & Hl)]; [rewrite Hxe in Hx; inversion Hx|]. split; [done|].
    rewrite Hl in Hf. apply elem_of_cons in Hf as [[= ?]|Hf]; [done|]. exfalso.
    rewrite Hl in Hw. inversion Hw as [|l2 x2 e2 y2 Hw2 Ha]; subst. rewrite (walk_end _ _ _ _ Hw2 Hf) in Ha. inversion Ha.
Qed.

(** The consumer's co_await continues at once when the producer stops. *)
Lemma stop_step (s : state) f p st c fc o e : areach s -> astack s = ARun (Co f) p :: st -> made f (atrace s) = true ->
  last_adv f (atrace s) = Some c -> aheap s !! c = Some fc -> c ≠ f ->
  (p = ARet ∧ o = OEnd ∧ e = AEFinish f None) ∨ (∃ x, p = AThrow x ∧ o = OExc x ∧ e = AEFinish f (Some x)) ∨ (∃ v0 ls0 p0, p = AYield v0 ls0 p0 ∧ o = OValue ∧ e = AEYield f v0) ->
  match astat fc with
  | SBegin f' ls k => f' = f -> ∃ s', astep s = ANext s' ∧ atrace s' = AEBack c f (ani s) o :: e :: atrace s ∧
      astack s' = ARun (Co c) (k (match o with OExc x => inr x | _ => inl (ani s) end)) :: st ∧
      aiters s' = match o with OValue => <[ani s := Some f]> (aiters s) | OEnd => <[ani s := None]> (aiters s) | OExc _ => aiters s end
  | SInc i f' ls k => f' = f -> ∃ s', astep s = ANext s' ∧ atrace s' = AEBack c f i o :: e :: atrace s ∧
      astack s' = ARun (Co c) (k (match o with OExc x => Some x | _ => None end)) :: st ∧
      aiters s' = match o with OValue => aiters s | _ => <[i := None]> (aiters s) end
  | _ => True
  end.
Proof.
  intros HR Hst Hm Hla Hc Hne Hp. pose proof (inv_reach _ HR) as HI. pose proof HI as (HH & _).
  destruct (h_act _ _ _ _ f HH) as (fr & Hf & Hr); [rewrite Hst; left|].
  pose proof (h_some _ _ _ _ _ _ HH Hf) as (_ & Ha & Hpr & (Hex & _) & _). rewrite Hm in Hpr. rewrite Hla in Ha.
  destruct (astat fc) as [| | | |f' ls k|i f' ls k|] eqn:Hs; try done; intros ->; unfold astep; rewrite Hst;
    destruct Hp as [(-> & -> & ->)|[(x & -> & -> & ->)|(v0 & ls0 & p0 & -> & -> & ->)]]; cbn; rewrite Hf; cbn; rewrite Hpr; unfold aback; rewrite Ha; cbn;
    rewrite lookup_insert_ne, Hc by done; cbn; rewrite ?Hex, Hs; rewrite decide_True by done; cbn; eexists; (split; [reflexivity|]); cbn;
    rewrite ?lookup_insert_ne by done; rewrite ?Hc; cbn; done.
Qed.
End more.
