(** * Ownership of AsyncGenerator coroutines over time. *)
From stdpp Require Import gmap list.
From Verif Require Import AGenModel AGenSpec AGenInv AGenStep AGenFacts AGenWait AGenLoop.

Section own.
Context {V E : Type}.
Notation state := (astate V E). Notation item := (aitem V E). Notation frame := (aframe V E).
Notation event := (aevent V E). Notation prog := (aprog V E).

Definition tame (e : event) : Prop := match e with AEDestroy _ | AEAct _ (XAssign (Some _)) => False | _ => True end.
Lemma tame_destroy f evs : Forall tame evs -> AEDestroy f ∉ evs.
Proof. intros H Hin. by apply (proj1 (Forall_forall _ _) H) in Hin. Qed.
Lemma tame_assign w f evs : Forall tame evs -> AEAct w (XAssign (Some f)) ∉ evs.
Proof. intros H Hin. by apply (proj1 (Forall_forall _ _) H) in Hin. Qed.

(** What one step can do to the owners. *)
Record own_ok (s s' : state) : Prop := {
  w_nf : anf s <= anf s';
  w_gens : ∀ g f, agens s' !! g = Some (Some f) -> (∃ g0, agens s !! g0 = Some (Some f)) ∨ anf s <= f;
  w_evs : ∃ evs, atrace s' = evs ++ atrace s ∧
    (∀ f, AEDestroy f ∈ evs -> ∃ g, agens s !! g = Some (Some f) ∧ agens s' !! g = None) ∧
    (∀ w f, AEAct w (XAssign (Some f)) ∈ evs -> evs = [AEAct w (XAssign (Some f))] ∧ (∃ g, agens s !! g = Some (Some f)) ∧
       ∀ g, agens s' !! g ≠ Some (Some f));
}.

Lemma ok_tame (s s' : state) evs : anf s <= anf s' -> (∀ g f, agens s' !! g = Some (Some f) -> (∃ g0, agens s !! g0 = Some (Some f)) ∨ anf s <= f) ->
  atrace s' = evs ++ atrace s -> Forall tame evs -> own_ok s s'.
Proof.
  intros H1 H2 H3 H4. split; [done|done|]. exists evs. split; [done|]. split.
  - intros f Hin. by destruct (tame_destroy f evs).
  - intros w f Hin. by destruct (tame_assign w f evs).
Qed.
Lemma ok_same (s s' : state) evs : anf s <= anf s' -> agens s' = agens s -> atrace s' = evs ++ atrace s -> Forall tame evs -> own_ok s s'.
Proof. intros H1 H2. apply ok_tame; [done|]. intros g f. rewrite H2. eauto. Qed.

Lemma ga_back f fr oc (s s' : state) : aback f fr oc s = ANext s' ->
  agens s' = agens s ∧ anf s' = anf s ∧ ∃ c i o, atrace s' = AEBack c f i o :: atrace s.
Proof.
  unfold aback. destruct oc as [c|]; [|done]. destruct (aheap s !! c) as [cf|]; [|done].
  set (o := if anonnull fr then _ else _). set (s3 := match o with OExc _ => _ | _ => _ end).
  assert (Ht : atrace s3 = atrace s ∧ agens s3 = agens s ∧ anf s3 = anf s) by (unfold s3; by destruct o). clearbody s3. clearbody o.
  set (r := match aheap s3 !! c with Some _ => _ | None => _ end).
  assert (Hr : atrace r = atrace s ∧ agens r = agens s ∧ anf r = anf s) by (unfold r; by destruct (aheap s3 !! c)). clearbody r.
  destruct Hr as (Hr1 & Hr2 & Hr3).
  intros Hs. destruct (astat cf) as [| | | |f' ls k|i f' ls k|]; try done; (destruct (decide (f' = f)) as [->|]; [|done]);
    destruct o; injection Hs as <-; cbn; rewrite Hr1, Hr2, Hr3; eauto 10.
Qed.
Lemma ga_go c f j (s s' : state) : ago c f j s = ANext s' -> agens s' = agens s ∧ anf s' = anf s ∧ atrace s' = AEAdv c f j :: atrace s.
Proof. unfold ago. destruct (aheap s !! f) as [fr|]; [|done]. intros Hs. destruct (astat fr); try done; by injection Hs as <-. Qed.
Lemma ga_drop g (s s' : state) : adrop g s = ANext s' -> agens s' = delete g (agens s) ∧ anf s' = anf s ∧
  ((atrace s' = atrace s ∧ agens s !! g = Some None) ∨ ∃ f, agens s !! g = Some (Some f) ∧ atrace s' = AEDestroy f :: atrace s).
Proof.
  unfold adrop, adestroy. destruct (agens s !! g) as [[f|]|]; [| |done].
  - cbn. destruct (aheap s !! f) as [fr|]; [|done]. destruct (astat fr) as [| | |pid [] ls c| | |]; try done; intros [= <-]; cbn; eauto 10.
  - intros [= <-]. cbn. eauto 10.
Qed.

Lemma ok_drop g (s0 s s' : state) evs : agens s = agens s0 -> anf s = anf s0 -> atrace s = evs ++ atrace s0 -> Forall tame evs ->
  adrop g s = ANext s' -> own_ok s0 s'.
Proof.
  intros Hg Hn Ht Hev H. apply ga_drop in H as (H1 & H2 & H3). rewrite Hg in *. split.
  - lia.
  - intros g' f. rewrite H1. intros [_ ?]%lookup_delete_Some. eauto.
  - destruct H3 as [[H3 Hgn]|(f & Hf & H3)].
    + exists evs. rewrite H3. split; [done|]. split; [intros f Hin; by destruct (tame_destroy f evs)|intros w f Hin; by destruct (tame_assign w f evs)].
    + exists (AEDestroy f :: evs). rewrite H3, Ht. split; [done|]. split.
      * intros f' [[= ->]|Hin]%elem_of_cons; [|by destruct (tame_destroy f' evs)]. exists g. split; [done|]. by rewrite H1, lookup_delete.
      * intros w f' [?|Hin]%elem_of_cons; [done|by destruct (tame_assign w f' evs)].
Qed.

Lemma own_step (s s' : state) : AInv s -> anext s s' -> own_ok s s'.
Proof.
  intros HI [Hs|[e Hs]].
  - unfold astep in Hs. destruct (astack s) as [|[w' p|[|g l]] st] eqn:Hst; [done|..].
    + destruct p as [|e|o p|v ls p|safe ls c|b p|b c|c|g c|g g2 p|g g2 p|g p|g ls c|c|j c|j ls c|j c|j j2 c]; cbn in Hs.
      * destruct w' as [f|n]; [|injection Hs as <-; by apply (ok_same _ _ [])].
        destruct (aheap s !! f) as [fr|] eqn:Hf; [|done]. destruct (aprod fr); [|injection Hs as <-; apply (ok_same _ _ [AEEnd f None]); by repeat constructor].
        apply ga_back in Hs as (H1 & H2 & c & i & o & H3). apply (ok_same _ _ [AEBack c f i o; AEFinish f None]); [by rewrite H2|done|done|by repeat constructor].
      * destruct w' as [f|n]; [|done].
        destruct (aheap s !! f) as [fr|] eqn:Hf; [|done]. destruct (aprod fr); [|injection Hs as <-; apply (ok_same _ _ [AEEnd f (Some e)]); by repeat constructor].
        apply ga_back in Hs as (H1 & H2 & c & i & o & H3). apply (ok_same _ _ [AEBack c f i o; AEFinish f (Some e)]); [by rewrite H2|done|done|by repeat constructor].
      * injection Hs as <-. eapply (ok_same _ _ [_]); [done|done|done|by repeat constructor].
      * destruct w' as [f|n]; [|done]. destruct (aheap s !! f) as [fr|] eqn:Hf; [|done]. destruct (aprod fr); [|done].
        apply ga_back in Hs as (H1 & H2 & c & i & o & H3). apply (ok_same _ _ [AEBack c f i o; AEYield f v]); [by rewrite H2|done|done|by repeat constructor].
      * destruct w' as [f|n]; [|done]. destruct (aheap s !! f) as [fr|] eqn:Hf; [|done]. injection Hs as <-. eapply (ok_same _ _ [_]); [done|done|done|by repeat constructor].
      * injection Hs as <-. eapply (ok_same _ _ [_; _]); [cbn; lia|done|done|by repeat constructor].
      * injection Hs as <-. eapply (ok_tame _ _ [_; _]); [cbn; lia| |done|by repeat constructor].
        cbn. intros g f [[_ [= <-]]|[_ ?]]%lookup_insert_Some; [by right|eauto].
      * injection Hs as <-. eapply (ok_tame _ _ [_]); [done| |done|by repeat constructor].
        cbn. intros g f [[_ ?]|[_ ?]]%lookup_insert_Some; [done|eauto].
      * destruct (agens s !! g) as [h|] eqn:Hg; [|done]. injection Hs as <-. eapply (ok_tame _ _ [_]); [done| |done|by repeat constructor].
        cbn. intros g' f [[_ ->]|[_ [[_ ?]|[_ ?]]%lookup_insert_Some]]%lookup_insert_Some; [eauto|done|eauto].
      * destruct (agens s !! g) as [old|] eqn:Hg; [|done]. destruct (agens s !! g2) as [h|] eqn:Hg2; [|done]. injection Hs as <-.
        pose proof HI as (_ & HO & _).
        assert (Hgs : ∀ g' f, <[g2:=None]> (<[g:=h]> (agens s)) !! g' = Some (Some f) -> (g' = g ∧ g' ≠ g2 ∧ h = Some f) ∨ (g' ≠ g ∧ g' ≠ g2 ∧ agens s !! g' = Some (Some f))).
        { intros g' f [[_ ?]|[? [[<- ->]|[? ?]]%lookup_insert_Some]]%lookup_insert_Some; [done|by left|by right]. }
        split; [done| |].
        -- cbn. intros g' f [(_ & _ & ->)|(_ & _ & ?)]%Hgs; eauto.
        -- exists [AEAct w' (XAssign old)]. split; [done|]. split; [by intros f ?%elem_of_list_singleton|].
           intros w f [= -> <-]%elem_of_list_singleton. split; [done|]. split; [eauto|]. cbn.
           intros g' [(-> & Hne & ->)|(Hne & Hne2 & Hg')]%Hgs.
           ++ destruct Hne. by apply (o_uniq _ _ _ _ HO g g2 f).
           ++ destruct Hne. by apply (o_uniq _ _ _ _ HO g' g f).
      * destruct (agens s !! g) as [h|] eqn:Hg; [|done]. destruct (agens s !! g2) as [h2|] eqn:Hg2; [|done]. injection Hs as <-.
        eapply (ok_tame _ _ [_]); [done| |done|by repeat constructor].
        cbn. intros g' f [[_ ->]|[_ [[_ ->]|[_ ?]]%lookup_insert_Some]]%lookup_insert_Some; eauto.
      * eapply (ok_drop g s _ s' [AEAct w' (XDrop g)]); [| | | |exact Hs]; [done|done|done|by repeat constructor].
      * destruct w' as [f|n]; [|done]. destruct (agens s !! g) as [[f'|]|]; [| |done].
        -- destruct (aheap s !! f) as [fr|] eqn:Hf; [|done]. apply ga_go in Hs as (H1 & H2 & H3).
           eapply (ok_same _ _ [_]); [by rewrite H2|done|done|by repeat constructor].
        -- injection Hs as <-. eapply (ok_same _ _ [_]); [done|done|done|by repeat constructor].
      * injection Hs as <-. eapply (ok_same _ _ [_]); [done|done|done|by repeat constructor].
      * destruct (aiters s !! j); [|done]. injection Hs as <-. eapply (ok_same _ _ [_]); [done|done|done|by repeat constructor].
      * destruct w' as [f|n]; [|done]. destruct (aiters s !! j) as [[f'|]|]; [|done|done].
        destruct (aheap s !! f) as [fr|] eqn:Hf; [|done]. apply ga_go in Hs as (H1 & H2 & H3).
        eapply (ok_same _ _ [_]); [by rewrite H2|done|done|by repeat constructor].
      * destruct (aiters s !! j) as [[f'|]|]; [|done|done]. destruct (aheap s !! f') as [fr|]; [|done]. destruct (anonnull fr); [|done].
        destruct (astat fr); try done. injection Hs as <-. eapply (ok_same _ _ [_]); [done|done|done|by repeat constructor].
      * destruct (aiters s !! j); [|done]. destruct (aiters s !! j2); [|done]. injection Hs as <-. eapply (ok_same _ _ [_]); [done|done|done|by repeat constructor].
    + injection Hs as <-. by apply (ok_same _ _ []).
    + eapply (ok_drop g s _ s' []); [| | | |exact Hs]; done.
  - unfold aenv_step in Hs. destruct (astack s) eqn:Hst; [|done]. destruct e as [p|pid v].
    + injection Hs as <-. apply (ok_same _ _ []); [cbn; lia|done|done|done].
    + destruct (apend s !! pid) as [f|] eqn:Hp; [|done]. destruct (aheap s !! f) as [fr|] eqn:Hf; [|done].
      destruct (astat fr) as [| | |pid' safe ls c| | |] eqn:Hsf; try done. destruct (decide (pid' = pid)) as [->|]; [|done].
      injection Hs as <-. eapply (ok_same _ _ [_]); [done|done|done|by repeat constructor].
Qed.

Definition lost (s : state) (f : nat) : Prop := f < anf s ∧ (∀ g, agens s !! g ≠ Some (Some f)) ∧ AEDestroy f ∉ atrace s.
Lemma lost_step (s s' : state) f : AInv s -> anext s s' -> lost s f -> lost s' f.
Proof.
  intros HI Hn (Hlt & Hno & Hnd). destruct (own_step s s' HI Hn) as [H1 H2 (evs & H3 & H4 & _)]. split; [lia|]. split.
  - intros g Hg. destruct (H2 g f Hg) as [[g0 ?]|?]; [by destruct (Hno g0)|lia].
  - rewrite H3, elem_of_app. intros [Hin|?]; [|done]. destruct (H4 f Hin) as (g & Hg & _). by destruct (Hno g).
Qed.
Lemma assigned_lost_step (s s' : state) w f : AInv s -> (AEAct w (XAssign (Some f)) ∈ atrace s -> lost s f) -> anext s s' ->
  AEAct w (XAssign (Some f)) ∈ atrace s' -> lost s' f.
Proof.
  intros HI IH Hn Hin. pose proof HI as (HH & HO & _). pose proof (own_step s s' HI Hn) as [H1 H2 (evs & H3 & H4 & H5)].
  rewrite H3 in Hin. apply elem_of_app in Hin as [Hin|Hin]; [|by eapply lost_step; [| |apply IH]].
  destruct (H5 w f Hin) as (-> & [g Hg] & Hno). destruct (o_gh _ _ _ _ HO g f Hg) as (fr & Hf & _).
  assert (f < anf s) by (eapply h_nf; eauto). split; [lia|]. split; [done|]. rewrite H3. cbn.
  intros [?|Hd]%elem_of_cons; [done|]. pose proof (destroy_gone _ _ (h_legal _ _ _ _ HH) Hd) as Hp.
  rewrite (proj1 (h_some _ _ _ _ _ _ HH Hf)) in Hp. by destruct (astat fr).
Qed.
Lemma assigned_lost (s : state) w f : areach s -> AEAct w (XAssign (Some f)) ∈ atrace s -> lost s f.
Proof.
  intros HR. unfold areach in HR. remember ainit as s0 eqn:E0.
  induction HR as [s|s s1 s2 H1 IH Hs|s s1 s2 e H1 IH Hs]; subst.
  - by intros ?%elem_of_nil.
  - apply (assigned_lost_step s1); [by apply inv_reach|by apply IH|by left].
  - apply (assigned_lost_step s1); [by apply inv_reach|by apply IH|right; by exists e].
Qed.

Lemma made_not_none f b (tr : list event) : alegal_trace tr -> AENew f b ∈ tr -> aphase_of f tr ≠ QNone.
Proof.
  intros Hl Hin Hp. destruct (none_made f tr Hl Hp) as (Hm & _). assert (made f tr = true) by (apply made_new; eauto). congruence.
Qed.
Lemma gone_made_destroyed f (tr : list event) : alegal_trace tr -> made f tr = true -> aphase_of f tr = QGone -> AEDestroy f ∈ tr.
Proof.
  induction tr as [|e l IH]; [done|]. intros [[_ He] Hl] Hm Hp.
  destruct e as [g b|g b|c g i|c g i o|g v|g r|g r|g x|g v|g|w o|w a]; cbn in *;
    repeat (destruct (decide (f = _)) as [<-|]; try done); try (right; by apply IH).
  - exfalso. destruct He as [_ He]. congruence.
  - left.
Qed.
End own.
