(** * Facts about the Generator machine used in PropsGen.v. *)
From stdpp Require Import gmap list.
From Verif Require Import GenModel GenSpec GenInv.

Section facts.
Context {V E : Type}.
Notation state := (gstate V E). Notation item := (gitem V E). Notation frame := (gframe V E).
Notation event := (gevent V E). Notation prog := (gprog V E unit). Notation pos := (gpos V E).

(** ** Consequences of legality *)
Lemma glegal_app (l1 l2 : list event) : glegal_trace (l1 ++ l2) -> glegal_trace l2.
Proof. induction l1 as [|e l1 IH]; [done|]. intros [_ H]. auto. Qed.

Lemma qrun_resumed f (tr : list event) : gphase_of f tr = QRun -> ∃ v, GEResume f v ∈ tr.
Proof.
  induction tr as [|e tr IH]; [done|]. intros H.
  assert (G : gphase_of f tr = QRun -> ∃ v, GEResume f v ∈ e :: tr) by (intros X; destruct (IH X) as [v ?]; exists v; by right).
  destruct e; cbn in H; auto; destruct (decide _) as [<-|]; try done; auto. eexists. left.
Qed.

Lemma by_gen_runs f e (l : list event) : glegal e l -> by_gen e = Some f -> gphase_of f l = QRun.
Proof.
  destruct e as [| |g v|g r| |[g|n] o|[g|n] a]; cbn; try done; try (intros H [= <-]; exact H).
  intros [H _] [= <-]. exact H.
Qed.

Lemma lazy_start (tr : list event) f e l1 l2 : glegal_trace tr -> tr = l1 ++ e :: l2 -> by_gen e = Some f ->
  ∃ v, GEResume f v ∈ l2.
Proof. intros H -> Hb. apply glegal_app in H as [He _]. eapply qrun_resumed, by_gen_runs; eauto. Qed.

Lemma gone_stays f (tr : list event) : glegal_trace tr -> GEDestroy f ∈ tr -> gphase_of f tr = QGone.
Proof.
  induction tr as [|e tr IH]; [by intros _ ?%elem_of_nil|]. intros [He Hl] [<-|Hin]%elem_of_cons.
  { cbn. by rewrite decide_True. }
  specialize (IH Hl Hin). destruct e as [g b|g [v|]|g v|g r|g|w o|w a]; cbn in *; try done;
    destruct (decide (f = g)) as [<-|]; try done; rewrite IH in He; naive_solver.
Qed.
Lemma gone_destroyed f (tr : list event) : gphase_of f tr = QGone -> GEDestroy f ∈ tr.
Proof.
  induction tr as [|e tr IH]; [done|]. intros H. destruct e; cbn in H; try (right; by auto); destruct (decide _) as [<-|]; try done;
    try (right; by auto). left.
Qed.
Lemma none_iff f (tr : list event) : gphase_of f tr ≠ QNone -> glegal_trace tr -> ∃ b, GENew f b ∈ tr.
Proof.
  induction tr as [|e tr IH]; [done|]. intros H [He Hl].
  assert (G : gphase_of f tr ≠ QNone -> ∃ b, GENew f b ∈ e :: tr) by (intros X; destruct (IH X Hl) as [b ?]; exists b; by right).
  destruct e as [g b|g [v|]|g v|g r|g|w o|w a]; cbn in *; auto; destruct (decide (f = g)) as [<-|]; auto.
  - eexists; left.
  - apply G. destruct He as [-> _]. done.
  - apply G. by rewrite He.
  - apply G. by rewrite He.
  - apply G. by rewrite He.
  - apply G. by destruct He as [-> |[-> | ->]].
Qed.
Lemma created_not_none f b (tr : list event) : GENew f b ∈ tr -> gphase_of f tr ≠ QNone.
Proof.
  induction tr as [|e tr IH]; [by intros ?%elem_of_nil|]. intros [<-|Hin]%elem_of_cons; [cbn; by rewrite decide_True|].
  specialize (IH Hin). destruct e; cbn; try done; by destruct (decide _).
Qed.
Lemma created_once f b b' (tr : list event) : glegal_trace tr -> GENew f b ∈ tr -> GENew f b' ∈ tr -> b = b'.
Proof.
  induction tr as [|e tr IH]; [by intros _ ?%elem_of_nil|]. intros [He Hl] [<-|Hin]%elem_of_cons [He2|Hin']%elem_of_cons.
  - congruence.
  - by destruct (created_not_none _ _ _ Hin').
  - subst e. by destruct (created_not_none _ _ _ Hin).
  - auto.
Qed.

Lemma lockstep f (tr : list event) : glegal_trace tr ->
  gsum (is_resume f) tr = gsum (is_stop f) tr + (if decide (gphase_of f tr = QRun) then 1 else 0).
Proof.
  induction tr as [|e tr IH]; [done|]. intros [He Hl]. specialize (IH Hl). cbn [gsum].
  destruct e as [g b|g v|g v|g r|g|w o|w a]; cbn [is_resume is_stop gphase_of gphase1]; try (rewrite IH; done).
  - destruct (decide (f = g)) as [<-|]; [|by rewrite IH]. cbn in He. rewrite He in IH.
    rewrite decide_False in IH by done. rewrite decide_False by done. lia.
  - destruct (decide (f = g)) as [<-|]; [|by rewrite IH].
    assert (gphase_of f tr ≠ QRun). { destruct v; cbn in He; [destruct He as [-> _]|rewrite He]; done. }
    rewrite decide_False in IH by done. rewrite decide_True by done. lia.
  - destruct (decide (f = g)) as [<-|]; [|by rewrite IH]. cbn in He. rewrite He in IH.
    rewrite decide_True in IH by done. rewrite decide_False by done. lia.
  - destruct (decide (f = g)) as [<-|]; [|by rewrite IH]. cbn in He. rewrite He in IH.
    rewrite decide_True in IH by done. rewrite decide_False by done. lia.
  - destruct (decide (f = g)) as [<-|]; [|by rewrite IH]. rewrite decide_False in IH by (by destruct He as [-> |[-> | ->]]).
    rewrite decide_False by done. lia.
Qed.

(** The value read through an iterator is the last co_yielded one unless somebody wrote to it. *)
Lemma cur_last f (tr : list event) : (∀ w v, GEAct w (AWrite f v) ∉ tr) -> gcur f tr = last (yielded f tr).
Proof.
  induction tr as [|e tr IH]; [done|]. intros H.
  assert (IH' : gcur f tr = last (yielded f tr)) by (apply IH; intros w v Hin; apply (H w v); by right).
  destruct e as [| |g v| | | |w a]; cbn; try done.
  - destruct (decide (f = g)); [|done]. by rewrite last_snoc.
  - destruct a as [| | | | | | | | |g v| |]; try done. destruct (decide (f = g)) as [<-|]; [|done].
    exfalso. apply (H w v). left.
Qed.

(** ** The body's own history is a run of the body *)
Definition item_code (i : item) : option prog :=
  match i with
  | GRun _ p => Some p | GAfterBegin _ g c => Some (GBegin g c) | GAfterInc _ i c => Some (GInc i c) | GDrops _ => None
  end.
Fixpoint code_of (f : nat) (st : list item) : option prog :=
  match st with
  | [] => None
  | i :: st => if decide (item_actor i = Some (Gen f)) then item_code i else code_of f st
  end.
Definition pos_ok (f : nat) (st : list item) (x : gstatus V E) (r : pos) : Prop :=
  match x with
  | GInit b => r = CStart b
  | GSusp _ _ c => r = CSusp c
  | GFinal => r = CEnd
  | GRunning => ∃ p, code_of f st = Some p ∧ r = CRun p
  end.
Definition WI (hp : gmap nat frame) (st : list item) (tr : list event) : Prop :=
  ∀ f b, GENew f b ∈ tr -> ∃ r, gwalk b (gproj f tr) r ∧ ∀ fr, hp !! f = Some fr -> pos_ok f st (gstat fr) r.

Lemma wi_same hp it it' st tr : item_actor it' = item_actor it -> item_code it' = item_code it ->
  WI hp (it :: st) tr -> WI hp (it' :: st) tr.
Proof.
  intros Ha Hc HW f b Hn. destruct (HW f b Hn) as (r & Hw & Hp). exists r. split; [done|]. intros fr Hf.
  specialize (Hp fr Hf). destruct (gstat fr); try done. cbn in *. by rewrite Ha, Hc.
Qed.
Lemma wi_skip hp it st tr : (∀ f, item_actor it ≠ Some (Gen f)) -> WI hp (it :: st) tr <-> WI hp st tr.
Proof.
  intros Ha. split; intros HW f b Hn; destruct (HW f b Hn) as (r & Hw & Hp); exists r; (split; [done|]); intros fr Hf;
    specialize (Hp fr Hf); destruct (gstat fr); try done; cbn in *; by rewrite decide_False in * by done.
Qed.

Lemma wi_act hp it st tr w p p' e l :
  item_actor it = Some w -> item_code it = Some p ->
  (e = GEObs w (match l with GLObs o => o | _ => GUser 0 end) ∧ (∃ o, l = GLObs o)) ∨ (∃ a, e = GEAct w a ∧ l = GLAct a) ->
  gadv (CRun p) l (CRun p') -> HI hp (it :: st) tr 0 ∨ (∀ f, w = Gen f -> ∃ fr, hp !! f = Some fr ∧ gstat fr = GRunning) ->
  WI hp (it :: st) tr -> WI hp (GRun w p' :: st) (e :: tr).
Proof.
  intros Ha Hc He Hadv Hrun HW f b Hn.
  assert (Hn' : GENew f b ∈ tr).
  { apply elem_of_cons in Hn as [Hq|?]; [|done]. destruct He as [[-> _]|(a & -> & _)]; done. }
  destruct (HW f b Hn') as (r & Hw & Hp).
  assert (Hpr : gproj f (e :: tr) = (if decide (Gen f = w) then [l] else []) ++ gproj f tr).
  { destruct He as [[-> [o ->]]|(a & -> & ->)]; done. }
  rewrite Hpr. destruct (decide (Gen f = w)) as [<-|Hne].
  - assert (∃ fr, hp !! f = Some fr ∧ gstat fr = GRunning) as (fr & Hf & Hr).
    { destruct Hrun as [Hh|Hh]; [|eauto]. apply (h_act _ _ _ _ Hh). rewrite actors_cons, Ha. left. }
    specialize (Hp fr Hf). rewrite Hr in Hp. cbn in Hp. rewrite decide_True in Hp by done.
    destruct Hp as (p0 & Hp0 & ->). assert (p0 = p) as -> by congruence.
    exists (CRun p'). split; [by econstructor|]. intros fr' Hf'. assert (fr' = fr) as -> by congruence. rewrite Hr.
    cbn. rewrite decide_True by done. eauto.
  - exists r. split; [done|]. intros fr Hf. specialize (Hp fr Hf). destruct (gstat fr); try done. cbn in *.
    rewrite decide_False in Hp by congruence. by rewrite decide_False by congruence.
Qed.

(** Events about other coroutines. *)
Lemma wi_other hp hp' st tr e f0 : (∀ f, f ≠ f0 -> gproj1 f e = []) -> (∀ f b, e ≠ GENew f b) ->
  (∀ f, f ≠ f0 -> hp' !! f = hp !! f) ->
  (∀ b r, GENew f0 b ∈ tr -> gwalk b (gproj f0 tr) r -> (∀ fr, hp !! f0 = Some fr -> pos_ok f0 st (gstat fr) r) ->
     ∃ r', gwalk b (gproj f0 (e :: tr)) r' ∧ ∀ fr, hp' !! f0 = Some fr -> pos_ok f0 st (gstat fr) r') ->
  WI hp st tr -> WI hp' st (e :: tr).
Proof.
  intros Hp He Hh H0 HW f b Hn. assert (Hn' : GENew f b ∈ tr).
  { apply elem_of_cons in Hn as [Hq|?]; [|done]. by destruct (He f b). }
  destruct (HW f b Hn') as (r & Hw & Hpos). destruct (decide (f = f0)) as [->|Hne]; [by eapply H0|].
  exists r. split; [cbn; by rewrite Hp|]. intros fr. rewrite Hh by done. apply Hpos.
Qed.

Lemma wi_destroy hp st tr f : WI hp st tr -> WI (delete f hp) st (GEDestroy f :: tr).
Proof.
  apply (wi_other _ _ _ _ _ f); try done.
  - intros g Hg. by rewrite lookup_delete_ne.
  - intros b r _ Hw _. exists r. split; [done|]. intros fr. by rewrite lookup_delete.
Qed.

Lemma wi_resume hp st tr f fr v p : HI hp st tr 0 ∨ Gen f ∉ gactors st -> hp !! f = Some fr ->
  match v with None => gstat fr = GInit p | Some v => ∃ ls c, gstat fr = GSusp v ls c ∧ p = c v end ->
  WI hp st tr -> WI (<[f := GFrame GRunning (gnonnull fr) (gexc fr)]> hp) (GRun (Gen f) p :: st) (GEResume f v :: tr).
Proof.
  intros _ Hf Hv HW g b Hn. assert (Hn' : GENew g b ∈ tr) by (by apply elem_of_cons in Hn as [?|?]).
  destruct (HW g b Hn') as (r & Hw & Hp). destruct (decide (g = f)) as [->|Hne].
  - specialize (Hp fr Hf). exists (CRun p). split.
    + cbn. rewrite decide_True by done. econstructor; [exact Hw|]. destruct v as [v|].
      * destruct Hv as (ls & c & Hs & ->). rewrite Hs in Hp. cbn in Hp. subst r. constructor.
      * rewrite Hv in Hp. cbn in Hp. subst r. constructor.
    + intros fr'. rewrite lookup_insert. intros [= <-]. cbn. rewrite decide_True by done. eauto.
  - exists r. split; [cbn; by rewrite decide_False|]. intros fr'. rewrite lookup_insert_ne by done. intros Hg.
    specialize (Hp fr' Hg). destruct (gstat fr'); try done. cbn. rewrite decide_False by congruence. done.
Qed.

Lemma wi_stop hp st tr f fr0 fr' e l p r' : item_actor (GRun (Gen f) p) = Some (Gen f) -> hp !! f = Some fr0 -> gstat fr0 = GRunning ->
  gproj1 f e = [l] -> (∀ g, g ≠ f -> gproj1 g e = []) -> (∀ f b, e ≠ GENew f b) ->
  gadv (CRun p) l r' -> pos_ok f st (gstat fr') r' ->
  WI hp (GRun (Gen f) p :: st) tr -> WI (<[f := fr']> hp) st (e :: tr).
Proof.
  intros _ Hf Hr Hl Ho Hne Hadv Hpos HW g b Hn. assert (Hn' : GENew g b ∈ tr).
  { apply elem_of_cons in Hn as [Hq|?]; [|done]. by destruct (Hne g b). }
  destruct (HW g b Hn') as (r & Hw & Hp). destruct (decide (g = f)) as [->|Hgf].
  - specialize (Hp _ Hf). rewrite Hr in Hp. cbn in Hp. rewrite decide_True in Hp by done. destruct Hp as (p0 & [= <-] & ->).
    exists r'. split; [cbn; rewrite Hl; by econstructor|]. intros fr. rewrite lookup_insert. by intros [= <-].
  - exists r. split; [cbn; by rewrite Ho|]. intros fr. rewrite lookup_insert_ne by done. intros Hg. specialize (Hp fr Hg).
    destruct (gstat fr); try done. cbn in Hp. by rewrite decide_False in Hp by congruence.
Qed.

Lemma none_proj f (tr : list event) : glegal_trace tr -> gphase_of f tr = QNone -> gproj f tr = [].
Proof.
  induction tr as [|e tr IH]; [done|]. intros [He Hl] Hp. change (gproj1 f e ++ gproj f tr = []).
  destruct e as [g b|g v|g v|g r|g|w o|w a]; cbn [gphase_of gphase1] in Hp; cbn [gproj1];
    try (destruct (decide (f = g)); [done|]; by auto); rewrite (IH Hl Hp);
    (destruct (decide (Gen f = w)) as [<-|]; [|done]); cbn in He; [|destruct He as [He _]]; congruence.
Qed.

Lemma wi_new hp st tr nf b : HI hp st tr nf -> WI hp st tr -> WI (<[nf := GFrame (GInit b) false None]> hp) st (GENew nf b :: tr).
Proof.
  intros HH HW g b' Hn. destruct (decide (g = nf)) as [->|Hne].
  - pose proof (h_fresh _ _ _ _ HH nf (Nat.le_refl _)) as Hph.
    assert (b' = b) as ->.
    { apply elem_of_cons in Hn as [[= ->]|Hin]; [done|]. by destruct (created_not_none _ _ _ Hin). }
    exists (CStart b). change (gproj nf (GENew nf b :: tr)) with (gproj nf tr). rewrite (none_proj nf tr (h_legal _ _ _ _ HH) Hph). split; [constructor|].
    intros fr. rewrite lookup_insert. by intros [= <-].
  - apply elem_of_cons in Hn as [[= ? ?]|Hn]; [done|]. destruct (HW g b' Hn) as (r & Hw & Hp). exists r. split; [done|].
    intros fr. rewrite lookup_insert_ne by done. apply Hp.
Qed.

Lemma wi_drop g (s s' : state) : gdrop g s = GNext s' -> WI (gheap s) (gstack s) (gtrace s) -> WI (gheap s') (gstack s') (gtrace s').
Proof.
  unfold gdrop. destruct (gens s !! g) as [[f|]|] eqn:Hg; [| |done].
  - unfold gdestroy. cbn. destruct (gheap s !! f) as [fr|] eqn:Hf; [|done].
    destruct (gstat fr) as [b| |v ls c|] eqn:Hs; try done; intros [= <-] HW; cbn; apply wi_skip; try done; by apply wi_destroy.
  - by intros [= <-].
Qed.
Lemma wi_gresume f (s s' : state) : gresume f s = GNext s' -> Inv s -> WI (gheap s) (gstack s) (gtrace s) -> WI (gheap s') (gstack s') (gtrace s').
Proof.
  intros H [HH _] HW. unfold gresume in H. destruct (gheap s !! f) as [fr|] eqn:Hf; [|done].
  assert (Hna : gstat fr ≠ GRunning -> Gen f ∉ gactors (gstack s)).
  { intros Hne Hin. destruct (h_act _ _ _ _ HH f Hin) as (fr' & ? & ?). congruence. }
  destruct (gstat fr) as [b| |v ls c|] eqn:Hs; try done; injection H as <-; cbn.
  - eapply (wi_resume _ _ _ f fr None); [right; by apply Hna|done|done|done].
  - eapply (wi_resume _ _ _ f fr (Some v)); [right; by apply Hna|done|eauto|done].
Qed.

Lemma wi_user w p st (s s' : state) : gstack s = GRun w p :: st -> Inv s ->
  gstep_user w p (gset_stack st s) = GNext s' -> WI (gheap s) (gstack s) (gtrace s) -> WI (gheap s') (gstack s') (gtrace s').
Proof.
  intros Hst HI0 Hstep HW. destruct (HI0) as [HH HO]. rewrite Hst in HH, HW.
  assert (Hrun : ∀ f, w = Gen f -> ∃ fr, gheap s !! f = Some fr ∧ gstat fr = GRunning).
  { intros f ->. apply (h_act _ _ _ _ HH). left. }
  assert (Hact : ∀ a p', gadv (CRun p) (GLAct a) (CRun p') ->
    WI (gheap s) (GRun w p' :: st) (GEAct w a :: gtrace s)).
  { intros a p' Ha. eapply wi_act; [..|exact HW]; [reflexivity|reflexivity|right; eauto|exact Ha|by right]. }
  destruct p as [u|e|o p|v ls c|b c|c|g c|g g2 p|g p|g c|c|i c|i c|i c|i v p|i j c]; cbn in Hstep.
  - destruct w as [f|n].
    + destruct (gheap s !! f) as [fr|] eqn:Hf; [|done]. injection Hstep as <-. destruct (Hrun f eq_refl) as (fr0 & ? & Hr).
      assert (fr0 = fr) as -> by congruence. cbn.
      eapply (wi_stop _ _ _ f fr _ _ (GLFinish None) (GRet u) CEnd); [done|exact Hf|exact Hr| | |done|constructor|done|done].
      * cbn. by rewrite decide_True.
      * intros g Hg. cbn. by rewrite decide_False.
    + injection Hstep as <-. cbn. by apply wi_skip in HW.
  - destruct w as [f|n]; [|done]. destruct (gheap s !! f) as [fr|] eqn:Hf; [|done]. injection Hstep as <-. destruct (Hrun f eq_refl) as (fr0 & ? & Hr).
    assert (fr0 = fr) as -> by congruence. cbn.
    eapply (wi_stop _ _ _ f fr _ _ (GLFinish (Some e)) (GThrow e) CEnd); [done|exact Hf|exact Hr| | |done|constructor|done|done].
    + cbn. by rewrite decide_True.
    + intros g Hg. cbn. by rewrite decide_False.
  - injection Hstep as <-. cbn. eapply (wi_act _ _ _ _ w _ _ _ (GLObs o)); [..|exact HW]; [reflexivity|reflexivity|left; eauto|constructor|by right].
  - destruct w as [f|n]; [|done]. destruct (gheap s !! f) as [fr|] eqn:Hf; [|done]. injection Hstep as <-. destruct (Hrun f eq_refl) as (fr0 & ? & Hr).
    assert (fr0 = fr) as -> by congruence. cbn.
    eapply (wi_stop _ _ _ f fr _ _ (GLYield v) (GYield v ls c) (CSusp c)); [done|exact Hf|exact Hr| | |done|constructor|done|done].
    + cbn. by rewrite decide_True.
    + intros g Hg. cbn. by rewrite decide_False.
  - injection Hstep as <-. cbn. apply wi_new; [|apply Hact; constructor].
    apply hi_quiet; [done| |by eapply hi_top; [|exact HH]]. cbn. split; [|done]. eapply hi_runs; [exact HH|left].
  - injection Hstep as <-. cbn. apply Hact. constructor.
  - destruct (gens s !! g); [|done]. injection Hstep as <-. cbn. apply Hact. constructor.
  - destruct (gens s !! g); [|done]. destruct (gens s !! g2); [|done]. injection Hstep as <-. cbn. apply Hact. constructor.
  - eapply wi_drop; [exact Hstep|]. cbn. apply Hact. constructor.
  - destruct (gens s !! g) as [[f|]|]; try done. eapply wi_gresume; [exact Hstep| |].
    + split; [|done]. cbn. by eapply hi_top; [|exact HH].
    + cbn. by eapply wi_same; [| |exact HW].
  - injection Hstep as <-. cbn. apply Hact. constructor.
  - destruct (iters s !! i); [|done]. injection Hstep as <-. cbn. apply Hact. constructor.
  - destruct (iters s !! i) as [[f|]|]; try done.
    + eapply wi_gresume; [exact Hstep| |].
      * split; [|done]. cbn. by eapply hi_top; [|exact HH].
      * cbn. by eapply wi_same; [| |exact HW].
    + injection Hstep as <-. cbn. apply Hact. constructor.
  - destruct (iters s !! i) as [[f|]|]; try done. destruct (gvalue f _) as [v|]; [|done]. injection Hstep as <-. cbn. apply Hact. constructor.
  - destruct (iters s !! i) as [[f|]|]; try done. destruct (gheap s !! f) as [fr|] eqn:Hf; [|done]. destruct (gnonnull fr); [|done].
    destruct (gstat fr) as [| |v0 ls cc|] eqn:Hs; try done. injection Hstep as <-. cbn.
    assert (HW1 : WI (gheap s) (GRun w p :: st) (GEAct w (AWrite f v) :: gtrace s)) by (apply Hact; constructor).
    intros g b Hn. destruct (HW1 g b Hn) as (r & Hw & Hp). exists r. split; [done|]. intros fr'.
    destruct (decide (f = g)) as [<-|]; [rewrite lookup_insert; intros [= <-]|rewrite lookup_insert_ne by done; apply Hp].
    specialize (Hp _ Hf). rewrite Hs in Hp. done.
  - destruct (iters s !! i); [|done]. destruct (iters s !! j); [|done]. injection Hstep as <-. cbn. apply Hact. constructor.
Qed.

Lemma wi_step (s s' : state) : Inv s -> gstep s = GNext s' -> WI (gheap s) (gstack s) (gtrace s) -> WI (gheap s') (gstack s') (gtrace s').
Proof.
  intros HI0 Hstep HW. destruct (HI0) as [HH HO]. unfold gstep in Hstep.
  destruct (gstack s) as [|[w p|w g c|w i c|[|g l]] st] eqn:Hst; [done|..].
  - eapply wi_user; [exact Hst|done|exact Hstep|by rewrite Hst].
  - assert (Hrun : ∀ f, w = Gen f -> ∃ fr, gheap s !! f = Some fr ∧ gstat fr = GRunning).
    { intros f ->. apply (h_act _ _ _ _ HH). left. }
    destruct (gens s !! g) as [[f|]|] eqn:Hg; try done. destruct (gheap s !! f) as [fr|] eqn:Hf; [|done].
    destruct (gnonnull fr); [|destruct (gexc fr)]; injection Hstep as <-; cbn;
      (eapply wi_act; [..|exact HW]; [reflexivity|reflexivity|right; eexists; by split|constructor|by right]).
  - assert (Hrun : ∀ f, w = Gen f -> ∃ fr, gheap s !! f = Some fr ∧ gstat fr = GRunning).
    { intros f ->. apply (h_act _ _ _ _ HH). left. }
    destruct (iters s !! i) as [[f|]|] eqn:Hg; try done. destruct (gheap s !! f) as [fr|] eqn:Hf; [|done].
    destruct (gnonnull fr); injection Hstep as <-; cbn;
      (eapply wi_act; [..|exact HW]; [reflexivity|reflexivity|right; eexists; by split|constructor|by right]).
  - injection Hstep as <-. cbn. by apply wi_skip in HW.
  - eapply wi_drop; [exact Hstep|]. cbn. apply wi_skip; [done|]. by apply wi_skip in HW.
Qed.

Lemma wi_reach (s : state) : greach s -> WI (gheap s) (gstack s) (gtrace s).
Proof.
  intros H. assert (H' : gexec ginit s) by exact H. remember ginit as s0 eqn:E0.
  induction H' as [s|s s1 s2 H1 IH Hs|s s1 s2 p H1 IH Hc]; subst.
  - by intros f b ?%elem_of_nil.
  - eapply wi_step; [by apply inv_reach|done|]. by apply IH.
  - specialize (IH H1 eq_refl). unfold gcall in Hc. destruct (gstack s1) eqn:Hst; [|done]. injection Hc as <-. cbn.
    by apply wi_skip.
Qed.
End facts.
