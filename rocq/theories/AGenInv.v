(** * Invariants of the AsyncGenerator machine. *)
From stdpp Require Import gmap list.
From Verif Require Import AGenModel AGenSpec.

Section inv.
Context {V E : Type}.
Notation state := (astate V E). Notation item := (aitem V E). Notation frame := (aframe V E).
Notation event := (aevent V E). Notation prog := (aprog V E).

Definition aitem_actor (i : item) : option aactor := match i with ARun w _ => Some w | ADrops _ => None end.
Definition acts (st : list item) : list aactor := omap aitem_actor st.
Lemma acts_cons i st : acts (i :: st) = match aitem_actor i with Some w => w :: acts st | None => acts st end.
Proof. done. Qed.

Definition sphase (x : astatus V E) : aphase V :=
  match x with
  | SInit _ => QInit | SRun => QRun | SYield v _ _ => QYield v | SLeaf _ _ _ _ => QLeaf
  | SBegin f _ _ => QWait f None | SInc i f _ _ => QWait f (Some i) | SFinal => QFin
  end.

Definition aval_ok (fr : frame) : Prop :=
  aexc fr = None ∧
  match astat fr with SInit _ | SFinal => anonnull fr = false | SYield _ _ _ => anonnull fr = true | _ => True end.

Definition pt (hp : gmap nat frame) (st : list item) (tr : list event) (g : nat) : Prop :=
  match hp !! g with
  | Some fr => aphase_of g tr = sphase (astat fr) ∧ acons fr = last_adv g tr ∧ aprod fr = made g tr ∧ aval_ok fr ∧
      (Co g ∈ acts st <-> astat fr = SRun)
  | None => (aphase_of g tr = QNone ∧ last_adv g tr = None ∧ made g tr = false ∨ aphase_of g tr = QGone) ∧ Co g ∉ acts st
  end.

Definition settled (tr : list event) : Prop := match tr with x :: _ => ¬ is_stop_event x | [] => True end.

Record AHI (hp : gmap nat frame) (st : list item) (tr : list event) (nf : nat) : Prop := {
  h_pt : ∀ g, pt hp st tr g;
  h_fresh : ∀ g, nf <= g -> hp !! g = None ∧ aphase_of g tr = QNone ∧ last_adv g tr = None ∧ made g tr = false;
  h_nd : NoDup (acts st);
  h_settled : settled tr;
  h_legal : alegal_trace tr;
}.

(** Consequences. *)
Lemma h_some hp st tr nf f fr : AHI hp st tr nf -> hp !! f = Some fr -> aphase_of f tr = sphase (astat fr) ∧ acons fr = last_adv f tr ∧
  aprod fr = made f tr ∧ aval_ok fr ∧ (Co f ∈ acts st <-> astat fr = SRun).
Proof. intros HH Hf. pose proof (h_pt _ _ _ _ HH f) as Hp. unfold pt in Hp. by rewrite Hf in Hp. Qed.
Lemma h_none hp st tr nf f : AHI hp st tr nf -> hp !! f = None ->
  (aphase_of f tr = QNone ∧ last_adv f tr = None ∧ made f tr = false ∨ aphase_of f tr = QGone) ∧ Co f ∉ acts st.
Proof. intros HH Hf. pose proof (h_pt _ _ _ _ HH f) as Hp. unfold pt in Hp. by rewrite Hf in Hp. Qed.
Lemma h_nf hp st tr nf f : AHI hp st tr nf -> is_Some (hp !! f) -> f < nf.
Proof. intros HH [fr Hf]. destruct (decide (f < nf)); [done|]. destruct (h_fresh _ _ _ _ HH f) as [? _]; [lia|]. congruence. Qed.
Lemma h_act hp st tr nf f : AHI hp st tr nf -> Co f ∈ acts st -> ∃ fr, hp !! f = Some fr ∧ astat fr = SRun.
Proof.
  intros HH Hin. destruct (hp !! f) as [fr|] eqn:Hf.
  - exists fr. split; [done|]. by apply (h_some _ _ _ _ _ _ HH Hf).
  - by destruct (h_none _ _ _ _ _ HH Hf).
Qed.
Lemma hi_runs hp st tr nf w : AHI hp st tr nf -> w ∈ acts st -> aruns w tr.
Proof.
  intros HH Hw. destruct w as [f|]; [|done]. cbn. destruct (h_act _ _ _ _ _ HH Hw) as (fr & Hf & Hr).
  rewrite (proj1 (h_some _ _ _ _ _ _ HH Hf)). by rewrite Hr.
Qed.

(** Untouched coroutines. *)
Lemma pt_other hp hp' st st' tr tr' g : hp' !! g = hp !! g -> aphase_of g tr' = aphase_of g tr -> last_adv g tr' = last_adv g tr ->
  made g tr' = made g tr -> (Co g ∈ acts st' <-> Co g ∈ acts st) -> pt hp st tr g -> pt hp' st' tr' g.
Proof.
  intros Hh Hp Ha Hm Hs. unfold pt. rewrite Hh, Hp, Ha, Hm. destruct (hp !! g) as [fr|].
  - by rewrite Hs.
  - by rewrite Hs.
Qed.

Lemma hi_top hp it it' st tr nf : aitem_actor it' = aitem_actor it -> AHI hp (it :: st) tr nf -> AHI hp (it' :: st) tr nf.
Proof.
  intros Hi []. assert (Ha : acts (it' :: st) = acts (it :: st)) by (by rewrite !acts_cons, Hi).
  split; try done.
  - intros g. eapply pt_other; [done..| |done]. by rewrite Ha.
  - by rewrite Ha.
Qed.
Lemma hi_drops hp l st tr nf : AHI hp st tr nf <-> AHI hp (ADrops l :: st) tr nf.
Proof. split; intros []; split; done. Qed.

Definition quiet (e : event) : Prop := match e with AEObs _ _ | AEAct _ _ => True | _ => False end.
Lemma hi_quiet hp st tr nf e : quiet e -> alegal e tr -> AHI hp st tr nf -> AHI hp st (e :: tr) nf.
Proof.
  intros Hq Hl []. split; try done.
  - intros g. eapply pt_other; [..|done]; by destruct e.
  - intros g Hg. destruct (h_fresh0 g Hg) as (? & ? & ? & ?). by destruct e.
  - intros Hs. by destruct e.
Qed.

Lemma settled_legal1 tr (e : event) : settled tr ->
  match tr with x :: _ => is_stop_event x -> ∃ c f i o, e = AEBack c f i o | [] => True end.
Proof. by destruct tr. Qed.

Lemma hi_pop hp n p st tr nf : AHI hp (ARun (Fun n) p :: st) tr nf -> AHI hp st tr nf.
Proof.
  intros []. split; try done.
  - intros g. eapply pt_other; [done..| |done]. rewrite acts_cons. cbn. rewrite elem_of_cons. naive_solver.
  - rewrite acts_cons in h_nd0. by inversion h_nd0.
Qed.

Lemma hi_call hp p tr nf : AHI hp [] tr nf -> AHI hp [ARun (Fun nf) p] tr (S nf).
Proof.
  intros []. split; try done.
  - intros g. eapply pt_other; [done..| |done]. cbn. rewrite elem_of_cons. naive_solver.
  - intros g Hg. apply h_fresh0. lia.
  - apply NoDup_singleton.
Qed.

(** A new coroutine. *)
Lemma hi_new hp st tr nf b : AHI hp st tr nf -> AHI (<[nf := AFrame true (SInit b) false None None]> hp) st (AENew nf b :: tr) (S nf).
Proof.
  intros HH. destruct (HH). destruct (h_fresh0 nf) as (Hn & Hp & Ha & Hm); [done|].
  split; try done.
  - intros g. destruct (decide (g = nf)) as [->|Hne].
    + unfold pt. rewrite lookup_insert. cbn. rewrite !decide_True by done. split; [done|]. split; [done|]. split; [done|]. split; [done|].
      split; [|done]. intros Hin. exfalso. by destruct (h_none _ _ _ _ _ HH Hn).
    + eapply pt_other; [..|by apply h_pt0]; cbn; rewrite ?lookup_insert_ne, ?decide_False by done; done.
  - intros g Hg. destruct (h_fresh0 g) as (? & ? & ? & ?); [lia|]. cbn. rewrite !decide_False, lookup_insert_ne by lia. done.
  - by intros [].
  - split; [|done]. split; [by apply settled_legal1|]. done.
Qed.

Lemma hi_spawn hp st tr nf b : AHI hp st tr nf ->
  AHI (<[nf := AFrame false SRun false None None]> hp) (ARun (Co nf) b :: st) (AESpawn nf b :: tr) (S nf).
Proof.
  intros HH. destruct (HH). destruct (h_fresh0 nf) as (Hn & Hp & Ha & Hm); [done|].
  split; try done.
  - intros g. destruct (decide (g = nf)) as [->|Hne].
    + unfold pt. rewrite lookup_insert. cbn. rewrite decide_True by done. split; [done|]. split; [done|]. split; [done|]. split; [done|].
      split; [done|]. intros _. left.
    + eapply pt_other; [..|by apply h_pt0]; cbn; rewrite ?lookup_insert_ne, ?decide_False by done; try done.
      rewrite elem_of_cons. naive_solver.
  - intros g Hg. destruct (h_fresh0 g) as (? & ? & ? & ?); [lia|]. cbn. rewrite !decide_False, lookup_insert_ne by lia. done.
  - rewrite acts_cons. cbn. constructor; [|done]. by destruct (h_none _ _ _ _ _ HH Hn).
  - by intros [].
  - split; [|done]. split; [by apply settled_legal1|]. done.
Qed.

(** Running coroutine c awaits f: c is suspended, f runs in its place. *)
Lemma hi_go hp st tr nf c f fc fr x j p0 p : AHI hp (ARun (Co c) p0 :: st) tr nf -> hp !! c = Some fc ->
  <[c := fr_stat x fc]> hp !! f = Some fr -> sphase x = QWait f j ->
  (astat fr = SInit p ∨ ∃ v ls, astat fr = SYield v ls p) ->
  AHI (<[f := fr_stat SRun (fr_cons c fr)]> (<[c := fr_stat x fc]> hp)) (ARun (Co f) p :: st) (AEAdv c f j :: tr) nf.
Proof.
  intros HH Hc Hf Hx Hs.
  assert (Hne : c ≠ f).
  { intros ->. rewrite lookup_insert in Hf. injection Hf as <-. cbn in Hs. destruct Hs as [->|(v & ls & ->)]; done. }
  rewrite lookup_insert_ne in Hf by done.
  destruct (HH).
  pose proof (h_some _ _ _ _ _ _ HH Hc) as (Pc & Cc & Mc & Vc & Ac).
  pose proof (h_some _ _ _ _ _ _ HH Hf) as (Pf & Cf & Mf & Vf & Af).
  assert (Hrc : astat fc = SRun) by (apply Ac; left).
  assert (Hnf : Co f ∉ acts (ARun (Co c) p0 :: st)) by (intros ?%Af; destruct Hs as [?|(? & ? & ?)]; congruence).
  rewrite acts_cons in h_nd0. cbn in h_nd0. inversion h_nd0 as [|? ? Hcn Hnd]; subst.
  rewrite acts_cons in Hnf. cbn in Hnf. apply not_elem_of_cons in Hnf as [_ Hnf].
  split.
  - intros g. destruct (decide (g = f)) as [->|Hgf]; [|destruct (decide (g = c)) as [->|Hgc]].
    + unfold pt. rewrite lookup_insert. cbn. rewrite decide_False, !decide_True by done. split; [done|]. split; [done|]. split; [done|].
      split; [|split; [done|]; intros _; left]. destruct Vf as [Vf _]. done.
    + unfold pt. rewrite lookup_insert_ne, lookup_insert by done. cbn. rewrite decide_True, decide_False by done. split; [done|]. split; [done|]. split; [done|].
      destruct Vc as [Vc _]. split; [split; [done|]; by destruct x|]. rewrite elem_of_cons.
      split; [intros [?|?]; [congruence|done]|]. intros ->. done.
    + eapply pt_other; [..|by apply h_pt0]; cbn; rewrite ?lookup_insert_ne, ?decide_False by done; try done.
      rewrite !elem_of_cons. naive_solver.
  - intros g Hg. destruct (h_fresh0 g Hg) as (? & ? & ? & ?).
    assert (c < nf) by (eapply h_nf; [done|eauto]). assert (f < nf) by (eapply h_nf; [done|eauto]).
    cbn. rewrite !decide_False, !lookup_insert_ne by lia. done.
  - rewrite acts_cons. cbn. by constructor.
  - by intros [].
  - split; [|done]. split; [by apply settled_legal1|]. split; [done|]. rewrite Pc, Hrc. split; [done|].
    rewrite Pf. destruct Hs as [->|(v & ls & ->)]; cbn; eauto.
Qed.

(** A running coroutine suspends in an external co_await. *)
Lemma hi_leaf hp st tr nf f fr p pid safe ls c : AHI hp (ARun (Co f) p :: st) tr nf -> hp !! f = Some fr ->
  AHI (<[f := fr_stat (SLeaf pid safe ls c) fr]> hp) st (AELeaf f safe :: tr) nf.
Proof.
  intros HH Hf. destruct (HH). pose proof (h_some _ _ _ _ _ _ HH Hf) as (Pf & Cf & Mf & Vf & Af).
  assert (Hr : astat fr = SRun) by (apply Af; left).
  rewrite acts_cons in h_nd0. cbn in h_nd0. inversion h_nd0 as [|? ? Hfn Hnd]; subst.
  split.
  - intros g. destruct (decide (g = f)) as [->|Hgf].
    + unfold pt. rewrite lookup_insert. cbn. rewrite decide_True by done. split; [done|]. split; [done|]. split; [done|].
      split; [|done]. destruct Vf as [? _]. done.
    + eapply pt_other; [..|by apply h_pt0]; cbn; rewrite ?lookup_insert_ne, ?decide_False by done; try done.
      rewrite !elem_of_cons. naive_solver.
  - intros g Hg. destruct (h_fresh0 g Hg) as (? & ? & ? & ?). assert (f < nf) by (eapply h_nf; [done|eauto]).
    cbn. rewrite !decide_False, !lookup_insert_ne by lia. done.
  - done.
  - by intros [].
  - split; [|done]. split; [by apply settled_legal1|]. cbn. by rewrite Pf, Hr.
Qed.

(** ... which completes. *)
Lemma hi_fire hp tr nf f fr pid safe ls c v p : AHI hp [] tr nf -> hp !! f = Some fr -> astat fr = SLeaf pid safe ls c ->
  AHI (<[f := fr_stat SRun fr]> hp) [ARun (Co f) p] (AEFire f v :: tr) nf.
Proof.
  intros HH Hf Hs. destruct (HH). pose proof (h_some _ _ _ _ _ _ HH Hf) as (Pf & Cf & Mf & Vf & Af).
  split.
  - intros g. destruct (decide (g = f)) as [->|Hgf].
    + unfold pt. rewrite lookup_insert. cbn. rewrite decide_True by done. split; [done|]. split; [done|]. split; [done|].
      split; [destruct Vf as [? _]; done|]. split; [done|]. intros _. left.
    + eapply pt_other; [..|by apply h_pt0]; cbn; rewrite ?lookup_insert_ne, ?decide_False by done; try done.
      rewrite !elem_of_cons. naive_solver.
  - intros g Hg. destruct (h_fresh0 g Hg) as (? & ? & ? & ?). assert (f < nf) by (eapply h_nf; [done|eauto]).
    cbn. rewrite !decide_False, !lookup_insert_ne by lia. done.
  - apply NoDup_singleton.
  - by intros [].
  - split; [|done]. split; [by apply settled_legal1|]. cbn. by rewrite Pf, Hs.
Qed.

(** A consumer coroutine ends. *)
Lemma hi_end hp st tr nf f fr p r : AHI hp (ARun (Co f) p :: st) tr nf -> hp !! f = Some fr -> aprod fr = false ->
  AHI (delete f hp) st (AEEnd f r :: tr) nf.
Proof.
  intros HH Hf Hpr. destruct (HH). pose proof (h_some _ _ _ _ _ _ HH Hf) as (Pf & Cf & Mf & Vf & Af).
  assert (Hr : astat fr = SRun) by (apply Af; left).
  rewrite acts_cons in h_nd0. cbn in h_nd0. inversion h_nd0 as [|? ? Hfn Hnd]; subst.
  split.
  - intros g. destruct (decide (g = f)) as [->|Hgf].
    + unfold pt. rewrite lookup_delete. cbn. rewrite decide_True by done. split; [by right|done].
    + eapply pt_other; [..|by apply h_pt0]; cbn; rewrite ?lookup_delete_ne, ?decide_False by done; try done.
      rewrite !elem_of_cons. naive_solver.
  - intros g Hg. destruct (h_fresh0 g Hg) as (? & ? & ? & ?). assert (f < nf) by (eapply h_nf; [done|eauto]).
    cbn. rewrite !decide_False, !lookup_delete_ne by lia. done.
  - done.
  - by intros [].
  - split; [|done]. split; [by apply settled_legal1|]. cbn. rewrite Pf, Hr, <- Mf. done.
Qed.

Lemma hi_destroy hp st tr nf f fr : AHI hp st tr nf -> hp !! f = Some fr -> astat fr ≠ SRun -> aprod fr = true ->
  AHI (delete f hp) st (AEDestroy f :: tr) nf.
Proof.
  intros HH Hf Hnr Hpr. destruct (HH). pose proof (h_some _ _ _ _ _ _ HH Hf) as (Pf & Cf & Mf & Vf & Af).
  split.
  - intros g. destruct (decide (g = f)) as [->|Hgf].
    + unfold pt. rewrite lookup_delete. cbn. rewrite decide_True by done. split; [by right|]. by intros ?%Af.
    + eapply pt_other; [..|by apply h_pt0]; cbn; rewrite ?lookup_delete_ne, ?decide_False by done; done.
  - intros g Hg. destruct (h_fresh0 g Hg) as (? & ? & ? & ?). assert (f < nf) by (eapply h_nf; [done|eauto]).
    cbn. rewrite !decide_False, !lookup_delete_ne by lia. done.
  - done.
  - by intros [].
  - split; [|done]. split; [by apply settled_legal1|]. cbn. rewrite Pf, <- Mf. split; [|done]. by destruct (astat fr).
Qed.

(** Running producer f stops (co_yield or end) and the coroutine c that waits for it goes on. [o]: the outcome. *)
Definition stop_of (f : nat) (fr fr' : frame) (e : event) (o : aout E) : Prop :=
  (∃ v ls p, e = AEYield f v ∧ fr' = AFrame true (SYield v ls p) true (aexc fr) (acons fr) ∧ o = OValue) ∨
  (e = AEFinish f None ∧ fr' = AFrame true SFinal false (aexc fr) (acons fr) ∧ o = OEnd) ∨
  (∃ x, e = AEFinish f (Some x) ∧ fr' = AFrame true SFinal false None (acons fr) ∧ o = OExc x).

Lemma hi_back hp st tr nf f fr fr' e o c fc p p' i j : AHI hp (ARun (Co f) p :: st) tr nf -> hp !! f = Some fr -> aprod fr = true ->
  stop_of f fr fr' e o -> acons fr = Some c -> hp !! c = Some fc -> c ≠ f -> sphase (astat fc) = QWait f j -> (j = None ∨ j = Some i) ->
  AHI (<[c := fr_stat SRun fc]> (<[f := fr']> hp)) (ARun (Co c) p' :: st) (AEBack c f i o :: e :: tr) nf.
Proof.
  intros HH Hf Hpr Hst Hco Hc Hne Hw Hj. destruct (HH).
  pose proof (h_some _ _ _ _ _ _ HH Hc) as (Pc & Cc & Mc & Vc & Ac).
  pose proof (h_some _ _ _ _ _ _ HH Hf) as (Pf & Cf & Mf & Vf & Af).
  assert (Hr : astat fr = SRun) by (apply Af; left).
  assert (Hnc : Co c ∉ acts (ARun (Co f) p :: st)) by (intros Hx%Ac; rewrite Hx in Hw; done).
  rewrite acts_cons in Hnc. cbn in Hnc. apply not_elem_of_cons in Hnc as [_ Hnc].
  rewrite acts_cons in h_nd0. cbn in h_nd0. inversion h_nd0 as [|? ? Hfn Hnd]; subst.
  assert (He : ∀ g, aphase_of g (AEBack c f i o :: e :: tr) = if decide (g = c) then QRun else if decide (g = f) then sphase (astat fr') else aphase_of g tr).
  { intros g. destruct Hst as [(v & ls & p1 & -> & -> & ->)|[(-> & -> & ->)|(x & -> & -> & ->)]]; done. }
  assert (Hla : ∀ g, last_adv g (AEBack c f i o :: e :: tr) = last_adv g tr).
  { intros g. destruct Hst as [(v & ls & p1 & -> & -> & ->)|[(-> & -> & ->)|(x & -> & -> & ->)]]; done. }
  assert (Hma : ∀ g, made g (AEBack c f i o :: e :: tr) = made g tr).
  { intros g. destruct Hst as [(v & ls & p1 & -> & -> & ->)|[(-> & -> & ->)|(x & -> & -> & ->)]]; done. }
  destruct Vf as [Vf _].
  split.
  - intros g. destruct (decide (g = c)) as [->|Hgc]; [|destruct (decide (g = f)) as [->|Hgf]].
    + unfold pt. rewrite lookup_insert, He, Hla, Hma, decide_True by done. cbn. split; [done|]. split; [done|]. split; [done|].
      split; [destruct Vc as [? _]; done|]. split; [done|]. intros _. left.
    + unfold pt. rewrite lookup_insert_ne, lookup_insert, He, Hla, Hma, decide_False, decide_True by done. split; [done|].
      assert (Hns : astat fr' ≠ SRun) by (destruct Hst as [(v & ls & p1 & -> & -> & ->)|[(-> & -> & ->)|(x & -> & -> & ->)]]; done).
      assert (Hv : acons fr' = acons fr ∧ aprod fr' = true ∧ aval_ok fr')
        by (destruct Hst as [(v & ls & p1 & -> & -> & ->)|[(-> & -> & ->)|(x & -> & -> & ->)]]; done).
      destruct Hv as (-> & -> & Hv). rewrite <- Mf, Hpr. split; [done|]. split; [done|]. split; [done|].
      rewrite acts_cons. cbn. rewrite elem_of_cons. split; [intros [?|?]; congruence|done].
    + eapply pt_other; [..|by apply h_pt0]; rewrite ?lookup_insert_ne, ?He, ?Hla, ?Hma, ?decide_False by done; try done.
      rewrite !acts_cons. cbn. rewrite !elem_of_cons. naive_solver.
  - intros g Hg. destruct (h_fresh0 g Hg) as (? & ? & ? & ?).
    assert (c < nf) by (eapply h_nf; [done|eauto]). assert (f < nf) by (eapply h_nf; [done|eauto]).
    rewrite He, Hla, Hma, !decide_False, !lookup_insert_ne by lia. done.
  - rewrite acts_cons. cbn. by constructor.
  - by intros [].
  - split; [split; [eauto 10|]|split; [|done]].
    + split; [|split].
      * change (last_adv f (AEBack c f i o :: e :: tr) = Some c). rewrite Hla. congruence.
      * exists j. split; [|done]. transitivity (aphase_of c tr).
        -- destruct Hst as [(v & ls & p1 & -> & -> & ->)|[(-> & -> & ->)|(x & -> & -> & ->)]]; cbn; by rewrite decide_False.
        -- congruence.
      * exists e, tr. split; [done|]. destruct Hst as [(v & ls & p1 & -> & -> & ->)|[(-> & -> & ->)|(x & -> & -> & ->)]]; cbn; by rewrite decide_True.
    + assert (aphase_of f tr = QRun ∧ made f tr = true) by (rewrite Pf, Hr; rewrite <- Mf; done).
      destruct Hst as [(v & ls & p1 & -> & -> & ->)|[(-> & -> & ->)|(x & -> & -> & ->)]]; (split; [by apply settled_legal1|done]).
Qed.

(** ** Ownership *)
Record AOI (hp : gmap nat frame) (gs : gmap nat (option nat)) (tr : list event) (ng : nat) : Prop := {
  o_ng : ∀ g, is_Some (gs !! g) -> g < ng;
  o_gh : ∀ g f, gs !! g = Some (Some f) -> ∃ fr, hp !! f = Some fr ∧ aprod fr = true;
  o_uniq : ∀ g g' f, gs !! g = Some (Some f) -> gs !! g' = Some (Some f) -> g = g';
  o_own : ∀ f fr, hp !! f = Some fr -> aprod fr = true -> (∃ g, gs !! g = Some (Some f)) ∨ ∃ w, AEAct w (XAssign (Some f)) ∈ tr;
}.

Lemma oi_tr hp gs tr ng e : AOI hp gs tr ng -> AOI hp gs (e :: tr) ng.
Proof. intros []. split; try done. intros f fr Hf Hp. destruct (o_own0 f fr Hf Hp) as [?|[w ?]]; [by left|right]. exists w. by right. Qed.

Definition same_prods (hp hp' : gmap nat frame) : Prop :=
  ∀ f, (∃ fr, hp !! f = Some fr ∧ aprod fr = true) <-> (∃ fr, hp' !! f = Some fr ∧ aprod fr = true).
Lemma oi_heap hp hp' gs tr ng : same_prods hp hp' -> AOI hp gs tr ng -> AOI hp' gs tr ng.
Proof.
  intros Hd []. split; try done; intros.
  - apply Hd. eauto.
  - destruct (proj2 (Hd f)) as (fr' & ? & ?); eauto.
Qed.
Lemma same_insert hp f fr fr' : hp !! f = Some fr -> aprod fr' = aprod fr -> same_prods hp (<[f := fr']> hp).
Proof.
  intros Hf Hp g. destruct (decide (f = g)) as [->|]; [rewrite lookup_insert|by rewrite lookup_insert_ne].
  rewrite Hf. split; intros (x & [= <-] & ?); eexists; (split; [done|congruence]).
Qed.
Lemma same_insert_new hp f fr : hp !! f = None -> aprod fr = false -> same_prods hp (<[f := fr]> hp).
Proof.
  intros Hf Hp g. destruct (decide (f = g)) as [->|]; [rewrite lookup_insert|by rewrite lookup_insert_ne].
  rewrite Hf. split; intros (x & ? & ?); [done|congruence].
Qed.
Lemma same_delete hp f fr : hp !! f = Some fr -> aprod fr = false -> same_prods hp (delete f hp).
Proof.
  intros Hf Hp g. destruct (decide (f = g)) as [->|]; [rewrite lookup_delete|by rewrite lookup_delete_ne].
  rewrite Hf. split; intros (x & ? & ?); [congruence|done].
Qed.
Lemma same_trans hp1 hp2 hp3 : same_prods hp1 hp2 -> same_prods hp2 hp3 -> same_prods hp1 hp3.
Proof. intros H1 H2 f. by rewrite (H1 f). Qed.

Lemma oi_new hp gs tr ng f fr : hp !! f = None -> aprod fr = true -> AOI hp gs tr ng -> AOI (<[f := fr]> hp) (<[ng := Some f]> gs) tr (S ng).
Proof.
  intros Hf Hpr [].
  assert (Hnew : gs !! ng = None).
  { destruct (gs !! ng) eqn:Hx; [|done]. assert (ng < ng) by eauto. lia. }
  assert (Hno : ∀ g, gs !! g ≠ Some (Some f)) by (intros g Hg; destruct (o_gh0 g f Hg) as (? & ? & ?); congruence).
  split.
  - intros g [h [[<- _]|[? Hg]]%lookup_insert_Some]; [lia|]. assert (g < ng) by eauto. lia.
  - intros g f' [[<- [= <-]]|[? Hg]]%lookup_insert_Some; [rewrite lookup_insert; eauto|].
    destruct (decide (f = f')) as [->|]; [rewrite lookup_insert|rewrite lookup_insert_ne by done]; eauto.
  - intros g g' f' [[<- [= <-]]|[? Hg]]%lookup_insert_Some [[<- Hq]|[? Hg']]%lookup_insert_Some; [done|by destruct (Hno g')| |eauto].
    injection Hq as <-. by destruct (Hno g).
  - intros f' fr' Hf' Hp'. destruct (decide (f = f')) as [->|Hne]; [left; exists ng; by rewrite lookup_insert|].
    rewrite lookup_insert_ne in Hf' by done. destruct (o_own0 f' fr' Hf' Hp') as [[g Hg]|?]; [left|by right].
    exists g. rewrite lookup_insert_ne; [done|]. intros <-. congruence.
Qed.

Lemma oi_null hp gs tr ng : AOI hp gs tr ng -> AOI hp (<[ng := None]> gs) tr (S ng).
Proof.
  intros []. assert (Hnew : gs !! ng = None).
  { destruct (gs !! ng) eqn:Hx; [|done]. assert (ng < ng) by eauto. lia. }
  split.
  - intros g [h [[<- _]|[? Hg]]%lookup_insert_Some]; [lia|]. assert (g < ng) by eauto. lia.
  - intros g f' [[<- ?]|[? Hg]]%lookup_insert_Some; [done|eauto].
  - intros g g' f' [[<- ?]|[? Hg]]%lookup_insert_Some [[<- ?]|[? Hg']]%lookup_insert_Some; try done. eauto.
  - intros f' fr' Hf' Hp'. destruct (o_own0 f' fr' Hf' Hp') as [[g Hg]|?]; [left|by right].
    exists g. rewrite lookup_insert_ne; [done|]. intros <-. congruence.
Qed.

Lemma oi_move hp gs tr ng g h : gs !! g = Some h -> AOI hp gs tr ng -> AOI hp (<[ng := h]> (<[g := None]> gs)) tr (S ng).
Proof.
  intros Hg []. assert (Hnew : gs !! ng = None).
  { destruct (gs !! ng) eqn:Hx; [|done]. assert (ng < ng) by eauto. lia. }
  assert (g ≠ ng) by congruence.
  split.
  - intros k [x [[<- _]|[? [[<- _]|[? Hk]]%lookup_insert_Some]]%lookup_insert_Some]; [lia| |]; apply Nat.lt_lt_succ_r; eauto.
  - intros k f [[<- ->]|[? [[<- ?]|[? Hk]]%lookup_insert_Some]]%lookup_insert_Some; [|done|]; eauto.
  - intros k k' f [[<- ->]|[? [[<- ?]|[? Hk]]%lookup_insert_Some]]%lookup_insert_Some; try done;
      intros [[<- Hq]|[? [[<- ?]|[? Hk']]%lookup_insert_Some]]%lookup_insert_Some; try done.
    + by assert (g = k') by eauto.
    + subst h. by assert (g = k) by eauto.
    + eauto.
  - intros f fr Hf Hp. destruct (o_own0 f fr Hf Hp) as [[k Hk]|?]; [left|by right].
    destruct (decide (k = g)) as [->|]; [exists ng; rewrite lookup_insert; congruence|].
    exists k. rewrite !lookup_insert_ne; [done|done|]. intros <-. congruence.
Qed.

Lemma oi_assign hp gs tr ng g g2 old h w : gs !! g = Some old -> gs !! g2 = Some h -> AOI hp gs tr ng ->
  AOI hp (<[g2 := None]> (<[g := h]> gs)) (AEAct w (XAssign old) :: tr) ng.
Proof.
  intros Hg Hg2 []. split.
  - intros k [x [[<- _]|[? [[<- _]|[? Hk]]%lookup_insert_Some]]%lookup_insert_Some]; eauto.
  - intros k f [[<- ?]|[? [[<- ->]|[? Hk]]%lookup_insert_Some]]%lookup_insert_Some; [done| |]; eauto.
  - intros k k' f [[<- ?]|[? [[<- ->]|[? Hk]]%lookup_insert_Some]]%lookup_insert_Some; try done;
      intros [[<- ?]|[? [[<- Hq]|[? Hk']]%lookup_insert_Some]]%lookup_insert_Some; try done.
    + by assert (g2 = k') by eauto.
    + subst h. by assert (g2 = k) by eauto.
    + eauto.
  - intros f fr Hf Hp. destruct (o_own0 f fr Hf Hp) as [[k Hk]|[w' ?]]; [|right; exists w'; by right].
    destruct (decide (old = Some f)) as [->|Hold]; [right; exists w; left|]. left.
    destruct (decide (k = g2)) as [->|].
    + exists g. rewrite lookup_insert_ne by congruence. rewrite lookup_insert. congruence.
    + exists k. rewrite !lookup_insert_ne; [done|congruence|done].
Qed.

Lemma oi_swap hp gs tr ng g g2 h h2 : gs !! g = Some h -> gs !! g2 = Some h2 -> AOI hp gs tr ng ->
  AOI hp (<[g2 := h]> (<[g := h2]> gs)) tr ng.
Proof.
  intros Hg Hg2 [].
  destruct (decide (g = g2)) as [<-|Hne].
  { assert (h2 = h) as -> by congruence. rewrite insert_insert, insert_id by done. by split. }
  (* the object that holds what k holds after the swap *)
  set (sw k := if decide (k = g) then g2 else if decide (k = g2) then g else k).
  assert (Hsw : ∀ k, <[g2 := h]> (<[g := h2]> gs) !! k = gs !! sw k).
  { intros k. unfold sw. destruct (decide (k = g)) as [->|]; [by rewrite lookup_insert_ne, lookup_insert by done|].
    destruct (decide (k = g2)) as [->|]; [by rewrite lookup_insert|]. by rewrite !lookup_insert_ne. }
  assert (Hinv : ∀ k, sw (sw k) = k).
  { intros k. unfold sw. destruct (decide (k = g)) as [->|]; [by rewrite decide_False, decide_True|].
    destruct (decide (k = g2)) as [->|]; [by rewrite decide_True|]. by rewrite !decide_False. }
  split.
  - intros k [x [[<- _]|[? [[<- _]|[? Hk]]%lookup_insert_Some]]%lookup_insert_Some]; eauto.
  - intros k f. rewrite Hsw. eauto.
  - intros k k' f. rewrite !Hsw. intros H1 H2. rewrite <- (Hinv k), <- (Hinv k'). f_equal. eauto.
  - intros f fr Hf Hp. destruct (o_own0 f fr Hf Hp) as [[k Hk]|?]; [left|by right]. exists (sw k). by rewrite Hsw, Hinv.
Qed.

(** ~AsyncGenerator of an object without coroutine. *)
Lemma oi_drop hp gs tr ng g : gs !! g = Some None -> AOI hp gs tr ng -> AOI hp (delete g gs) tr ng.
Proof.
  intros Hg []. split.
  - intros k [x [? Hk]%lookup_delete_Some]. eauto.
  - intros k f [? Hk]%lookup_delete_Some. eauto.
  - intros k k' f [? Hk]%lookup_delete_Some [? Hk']%lookup_delete_Some. eauto.
  - intros f fr Hf Hp. destruct (o_own0 f fr Hf Hp) as [[k Hk]|?]; [left|by right]. exists k. rewrite lookup_delete_ne; [done|]. congruence.
Qed.
Lemma oi_destroy hp gs tr ng g f : gs !! g = Some (Some f) -> AOI hp gs tr ng -> AOI (delete f hp) (delete g gs) tr ng.
Proof.
  intros Hg []. split.
  - intros k [x [? Hk]%lookup_delete_Some]. eauto.
  - intros k f' [? Hk]%lookup_delete_Some. rewrite lookup_delete_ne; [eauto|]. intros <-. apply H. eauto.
  - intros k k' f' [? Hk]%lookup_delete_Some [? Hk']%lookup_delete_Some. eauto.
  - intros f' fr [? Hf]%lookup_delete_Some Hp. destruct (o_own0 f' fr Hf Hp) as [[k Hk]|?]; [|by right]. left.
    exists k. rewrite lookup_delete_ne; [done|]. congruence.
Qed.

(** ** Pending completions *)
Record API (hp : gmap nat frame) (pn : gmap nat nat) (tr : list event) (np : nat) : Prop := {
  p_np : ∀ pid, is_Some (pn !! pid) -> pid < np;
  p_leaf : ∀ f fr pid safe ls c, hp !! f = Some fr -> astat fr = SLeaf pid safe ls c -> pn !! pid = Some f ∧ AELeaf f safe ∈ tr;
  p_owner : ∀ pid f, pn !! pid = Some f ->
    (∃ fr safe ls c, hp !! f = Some fr ∧ astat fr = SLeaf pid safe ls c) ∨ (hp !! f = None ∧ aphase_of f tr = QGone ∧ AELeaf f false ∈ tr);
}.

Lemma gone_abs g (e : event) l : alegal e l -> aphase_of g l = QGone -> aphase_of g (e :: l) = QGone.
Proof.
  intros [_ He] Hg. destruct e as [f b|f b|c f i|c f i o|f v|f r|f r|f x|f v|f|w o|w a]; cbn in *; try done;
    repeat (destruct (decide (g = _)) as [->|]); try done; try congruence; try (destruct He as [? ?]; congruence).
  - destruct He as (? & ? & ?); congruence.
  - destruct He as (? & ? & [?|[? ?]]); congruence.
  - destruct He as (_ & (j & Hj & _) & _). congruence.
Qed.

Lemma pi_tr hp pn tr np e : alegal e tr -> API hp pn tr np -> API hp pn (e :: tr) np.
Proof.
  intros Hl []. split; [done|..].
  - intros f fr pid safe ls c Hf Hs. destruct (p_leaf0 _ _ _ _ _ _ Hf Hs). split; [done|]. by right.
  - intros pid f Hp. destruct (p_owner0 pid f Hp) as [?|(? & ? & ?)]; [by left|right]. split; [done|]. split; [by apply gone_abs|by right].
Qed.

Definition leafy (x : astatus V E) : bool := match x with SLeaf _ _ _ _ => true | _ => false end.

(** A frame not in an external co_await changes to another such status. *)
Lemma pi_ins hp pn tr np f fr fr' : hp !! f = Some fr -> leafy (astat fr) = false -> leafy (astat fr') = false ->
  API hp pn tr np -> API (<[f := fr']> hp) pn tr np.
Proof.
  intros Hf H1 H2 []. split; [done|..].
  - intros g x pid safe ls c [[<- <-]|[? Hg]]%lookup_insert_Some Hs; [by rewrite Hs in H2|eauto].
  - intros pid g Hp. destruct (p_owner0 pid g Hp) as [(x & safe & ls & c & Hg & Hs)|(Hg & ? & ?)].
    + left. exists x, safe, ls, c. split; [|done]. rewrite lookup_insert_ne; [done|]. intros <-. rewrite Hf in Hg. injection Hg as <-. by rewrite Hs in H1.
    + right. split; [|done]. rewrite lookup_insert_ne; [done|]. intros <-. congruence.
Qed.
Lemma pi_new hp pn tr np f fr : hp !! f = None -> aphase_of f tr ≠ QGone -> leafy (astat fr) = false ->
  API hp pn tr np -> API (<[f := fr]> hp) pn tr np.
Proof.
  intros Hf Hng H2 []. split; [done|..].
  - intros g x pid safe ls c [[<- <-]|[? Hg]]%lookup_insert_Some Hs; [by rewrite Hs in H2|eauto].
  - intros pid g Hp. destruct (p_owner0 pid g Hp) as [(x & safe & ls & c & Hg & Hs)|(Hg & ? & ?)].
    + left. exists x, safe, ls, c. split; [|done]. rewrite lookup_insert_ne; [done|]. congruence.
    + right. split; [|done]. rewrite lookup_insert_ne; [done|]. by intros <-.
Qed.
Lemma pi_leaf hp pn tr np f fr safe ls c : hp !! f = Some fr -> leafy (astat fr) = false -> alegal (AELeaf f safe) tr ->
  API hp pn tr np -> API (<[f := fr_stat (SLeaf np safe ls c) fr]> hp) (<[np := f]> pn) (AELeaf f safe :: tr) (S np).
Proof.
  intros Hf H1 Hl [].
  assert (Hnew : pn !! np = None).
  { destruct (pn !! np) eqn:Hx; [|done]. assert (np < np) by eauto. lia. }
  split.
  - intros pid [x [[<- _]|[? Hg]]%lookup_insert_Some]; [lia|]. assert (pid < np) by eauto. lia.
  - intros g x pid safe' ls' c' [[<- <-]|[? Hg]]%lookup_insert_Some Hs.
    + cbn in Hs. injection Hs as -> -> -> ->. rewrite lookup_insert. split; [done|left].
    + destruct (p_leaf0 _ _ _ _ _ _ Hg Hs). rewrite lookup_insert_ne by congruence. split; [done|by right].
  - intros pid g [[<- <-]|[? Hg]]%lookup_insert_Some.
    + left. rewrite lookup_insert. eauto 10.
    + destruct (p_owner0 pid g Hg) as [(x & safe' & ls' & c' & Hx & Hs)|(Hx & ? & ?)].
      * left. exists x, safe', ls', c'. split; [|done]. rewrite lookup_insert_ne; [done|]. intros <-. rewrite Hf in Hx. injection Hx as <-. by rewrite Hs in H1.
      * right. split; [rewrite lookup_insert_ne; congruence|]. split; [by apply gone_abs|by right].
Qed.
Lemma pi_fire hp pn tr np f fr pid safe ls c fr' e : hp !! f = Some fr -> astat fr = SLeaf pid safe ls c -> leafy (astat fr') = false ->
  alegal e tr -> API hp pn tr np -> API (<[f := fr']> hp) (delete pid pn) (e :: tr) np.
Proof.
  intros Hf H1 H2 Hl HP. pose proof (pi_tr _ _ _ _ _ Hl HP) as []. split.
  - intros q [x [? Hq]%lookup_delete_Some]. eauto.
  - intros g x q safe' ls' c' [[<- <-]|[? Hg]]%lookup_insert_Some Hs; [by rewrite Hs in H2|].
    destruct (p_leaf0 _ _ _ _ _ _ Hg Hs). split; [|done]. rewrite lookup_delete_ne; [done|]. intros <-.
    destruct (p_leaf0 _ _ _ _ _ _ Hf H1). congruence.
  - intros q g [? Hq]%lookup_delete_Some. destruct (p_owner0 q g Hq) as [(x & safe' & ls' & c' & Hx & Hs)|(Hx & ? & ?)].
    + left. exists x, safe', ls', c'. split; [|done]. rewrite lookup_insert_ne; [done|]. intros <-. rewrite Hf in Hx. injection Hx as <-. congruence.
    + right. split; [|done]. rewrite lookup_insert_ne; [done|]. congruence.
Qed.
Lemma pi_del hp pn tr np f fr e : hp !! f = Some fr -> leafy (astat fr) = false -> alegal e tr ->
  API hp pn tr np -> API (delete f hp) pn (e :: tr) np.
Proof.
  intros Hf H1 Hl HP. pose proof (pi_tr _ _ _ _ _ Hl HP) as []. split; [done|..].
  - intros g x q safe' ls' c' [? Hg]%lookup_delete_Some Hs. eauto.
  - intros q g Hq. destruct (p_owner0 q g Hq) as [(x & safe' & ls' & c' & Hx & Hs)|(Hx & ? & ?)].
    + left. exists x, safe', ls', c'. split; [|done]. rewrite lookup_delete_ne; [done|]. intros <-. rewrite Hf in Hx. injection Hx as <-. by rewrite Hs in H1.
    + right. split; [|done]. rewrite lookup_delete_ne; [done|]. congruence.
Qed.
Lemma pi_destroy_leaf hp pn tr np f fr pid (safe : bool) ls c : hp !! f = Some fr -> astat fr = SLeaf pid safe ls c -> alegal (AEDestroy f) tr ->
  API hp pn tr np -> API (delete f hp) (if safe then delete pid pn else pn) (AEDestroy f :: tr) np.
Proof.
  intros Hf H1 Hl HP. pose proof (pi_tr _ _ _ _ _ Hl HP) as [].
  assert (Hin : AELeaf f safe ∈ tr) by (eapply p_leaf; eauto).
  split.
  - intros q [x Hq]. destruct safe; [apply lookup_delete_Some in Hq as [? Hq]|]; eauto.
  - intros g x q safe' ls' c' [? Hg]%lookup_delete_Some Hs. destruct (p_leaf0 _ _ _ _ _ _ Hg Hs). split; [|done].
    destruct safe; [|done]. rewrite lookup_delete_ne; [done|]. intros <-. destruct (p_leaf0 _ _ _ _ _ _ Hf H1). congruence.
  - intros q g Hq.
    assert (Hq' : pn !! q = Some g ∧ (safe = true -> q ≠ pid)).
    { destruct safe; [apply lookup_delete_Some in Hq as [? Hq]|]; done. }
    destruct Hq' as [Hq' Hne]. destruct (decide (g = f)) as [->|Hgf].
    + destruct safe.
      * exfalso. destruct (p_owner0 q f Hq') as [(x & safe' & ls' & c' & Hx & Hs)|(Hx & _)]; [|congruence].
        rewrite Hf in Hx. injection Hx as <-. rewrite H1 in Hs. injection Hs as <-. by apply Hne.
      * right. rewrite lookup_delete. cbn. rewrite decide_True by done. split; [done|]. split; [done|]. by right.
    + destruct (p_owner0 q g Hq') as [(x & safe' & ls' & c' & Hx & Hs)|(Hx & ? & ?)].
      * left. exists x, safe', ls', c'. by rewrite lookup_delete_ne.
      * right. by rewrite lookup_delete_ne.
Qed.

(** ** Iterators *)
Record AII (hp : gmap nat frame) (its : gmap nat (option nat)) (tr : list event) (ni : nat) : Prop := {
  i_ni : ∀ i, is_Some (its !! i) -> i < ni;
  i_adv : ∀ i f, its !! i = Some (Some f) -> is_Some (last_adv f tr);
  i_inc : ∀ c fc i f ls k, hp !! c = Some fc -> astat fc = SInc i f ls k -> is_Some (its !! i) ∧ AEAdv c f (Some i) ∈ tr;
  i_bind : ∀ c f i, AEAdv c f (Some i) ∈ tr -> its !! i = Some (Some f) ∨ its !! i = Some None;
}.
Lemma adv_keep f (e : event) tr : is_Some (last_adv f tr) -> is_Some (last_adv f (e :: tr)).
Proof. intros H. destruct e; cbn; try done. by destruct (decide _). Qed.
Lemma ii_tr hp its tr ni e : (∀ c f i, e = AEAdv c f (Some i) -> its !! i = Some (Some f)) -> AII hp its tr ni -> AII hp its (e :: tr) ni.
Proof.
  intros He []. split; [done|..].
  - intros i f Hi. apply adv_keep. eauto.
  - intros c fc i f ls k Hc Hs. destruct (i_inc0 _ _ _ _ _ _ Hc Hs). split; [done|by right].
  - intros c f i [<-|Hin]%elem_of_cons; eauto.
Qed.
Lemma ii_ins hp its tr ni f fr : (∀ i g ls k, astat fr ≠ SInc i g ls k) -> AII hp its tr ni -> AII (<[f := fr]> hp) its tr ni.
Proof.
  intros Hn []. split; [done|done| |done]. intros c fc i g ls k [[<- <-]|[? Hc]]%lookup_insert_Some Hs; [by destruct (Hn i g ls k)|eauto].
Qed.
Lemma ii_inc hp its tr ni c fc i f ls k : is_Some (its !! i) -> AEAdv c f (Some i) ∈ tr -> AII hp its tr ni ->
  AII (<[c := fr_stat (SInc i f ls k) fc]> hp) its tr ni.
Proof.
  intros Hi Hin []. split; [done|done| |done]. intros c' fc' i' f' ls' k' [[<- <-]|[? Hc]]%lookup_insert_Some Hs; [|eauto].
  cbn in Hs. injection Hs as -> -> -> ->. done.
Qed.
Lemma ii_del hp its tr ni f : AII hp its tr ni -> AII (delete f hp) its tr ni.
Proof. intros []. split; [done|done| |done]. intros c fc i g ls k [? Hc]%lookup_delete_Some Hs. eauto. Qed.
Lemma ii_new hp its tr ni h : (∀ f, h = Some f -> is_Some (last_adv f tr)) -> AII hp its tr ni -> AII hp (<[ni := h]> its) tr (S ni).
Proof.
  intros Hh []. split.
  - intros i [x [[<- _]|[? Hi]]%lookup_insert_Some]; [lia|]. assert (i < ni) by eauto. lia.
  - intros i f [[<- ->]|[? Hi]]%lookup_insert_Some; eauto.
  - intros c fc i f ls k Hc Hs. destruct (i_inc0 _ _ _ _ _ _ Hc Hs) as [Hi ?]. split; [|done].
    rewrite lookup_insert_ne; [done|]. intros <-. specialize (i_ni0 ni Hi). lia.
  - intros c f i Hin. specialize (i_bind0 c f i Hin). rewrite lookup_insert_ne; [done|]. intros <-.
    assert (ni < ni) by (apply i_ni0; destruct i_bind0 as [-> | ->]; eauto). lia.
Qed.
Lemma ii_end hp its tr ni i : is_Some (its !! i) -> AII hp its tr ni -> AII hp (<[i := None]> its) tr ni.
Proof.
  intros Hi0 []. split.
  - intros j [x [[<- _]|[? Hi]]%lookup_insert_Some]; eauto.
  - intros j f [[<- ?]|[? Hi]]%lookup_insert_Some; [done|eauto].
  - intros c fc j f ls k Hc Hs. destruct (i_inc0 _ _ _ _ _ _ Hc Hs) as [Hi ?]. split; [|done].
    destruct (decide (i = j)) as [->|]; [rewrite lookup_insert; eauto|]. by rewrite lookup_insert_ne.
  - intros c f j Hin. destruct (decide (i = j)) as [->|]; [rewrite lookup_insert; eauto|]. rewrite lookup_insert_ne; eauto.
Qed.

(** ** Preservation *)
Definition AInv (s : state) : Prop :=
  AHI (aheap s) (astack s) (atrace s) (anf s) ∧ AOI (aheap s) (agens s) (atrace s) (ang s) ∧
  API (aheap s) (apend s) (atrace s) (anp s) ∧ AII (aheap s) (aiters s) (atrace s) (ani s).

Lemma hi_legal_head hp st e tr nf : AHI hp st (e :: tr) nf -> alegal e tr.
Proof. intros []. apply h_legal0. Qed.

Lemma inv_quiet w p p' e st (s : state) : astack s = ARun w p :: st -> quiet e -> alegal e (atrace s) -> AInv s ->
  AInv (apush (ARun w p') (aemit e (aset_stack st s))).
Proof.
  intros Hst Hq Hl (HH & HO & HP & HI). rewrite Hst in HH. split; [|split; [|split]]; cbn.
  - apply hi_quiet; [done..|]. by eapply hi_top; [|exact HH].
  - by apply oi_tr.
  - by apply pi_tr.
  - apply ii_tr; [|done]. by intros ? ? ? ->.
Qed.
End inv.
