(** * The events of a coroutine are a run of its body (AsyncGenerator machine). *)
From stdpp Require Import gmap list.
From Verif Require Import AGenModel AGenSpec AGenInv AGenStep AGenFacts AGenWait AGenLoop AGenOwn.

Section walk.
Context {V E : Type}.
Notation state := (astate V E). Notation item := (aitem V E). Notation frame := (aframe V E).
Notation event := (aevent V E). Notation prog := (aprog V E). Notation pos := (apos V E).

Definition at_pos (hp : gmap nat frame) (st : list item) (f : nat) (x : pos) : Prop :=
  match hp !! f with
  | None => True
  | Some fr =>
    match astat fr with
    | SInit b => x = CStart b
    | SRun => ∃ p, ARun (Co f) p ∈ st ∧ x = CRun p
    | SYield _ _ p => x = CSusp p
    | SLeaf _ _ _ c => x = CLeafW c
    | SBegin _ _ c => x = CBeginW c
    | SInc i _ _ c => x = CIncW i c
    | SFinal => x = CEnd
    end
  end.
Definition starts (f : nat) (x0 : pos) (tr : list event) : Prop :=
  (∃ b, AENew f b ∈ tr ∧ x0 = CStart b) ∨ (∃ b, AESpawn f b ∈ tr ∧ x0 = CRun b).
Definition WI (s : state) : Prop := ∀ f x0, starts f x0 (atrace s) -> ∃ x, awalk x0 (aproj f (atrace s)) x ∧ at_pos (aheap s) (astack s) f x.

Lemma aproj_app f (l1 l2 : list event) : aproj f (l1 ++ l2) = aproj f l1 ++ aproj f l2.
Proof. apply flat_map_app. Qed.
Lemma walk_app (x0 x y : pos) l1 l2 : awalk x0 l2 x -> awalk x l1 y -> awalk x0 (l1 ++ l2) y.
Proof. intros H1 H2. induction H2; [done|]. cbn. econstructor; eauto. Qed.
Lemma walk1 (x y : pos) e : aadv x e y -> awalk x [e] y.
Proof. intros H. econstructor; [constructor|done]. Qed.

Lemma at_other hp hp' st st' f x : hp' !! f = hp !! f -> (∀ p, ARun (Co f) p ∈ st -> ARun (Co f) p ∈ st') ->
  at_pos hp st f x -> at_pos hp' st' f x.
Proof.
  unfold at_pos. intros -> Hs. destruct (hp !! f) as [fr|]; [|done]. destruct (astat fr); try done.
  intros (p & ? & ?). eauto.
Qed.

Definition nostart (e : event) : Prop := match e with AENew _ _ | AESpawn _ _ => False | _ => True end.
Lemma wi_intro (s s' : state) evs : atrace s' = evs ++ atrace s -> Forall nostart evs ->
  (∀ f x, at_pos (aheap s) (astack s) f x -> ∃ y, awalk x (aproj f evs) y ∧ at_pos (aheap s') (astack s') f y) -> WI s -> WI s'.
Proof.
  intros Ht Hns Hgo HW f x0 Hst.
  assert (Hst' : starts f x0 (atrace s)).
  { destruct Hst as [(b & Hin & ->)|(b & Hin & ->)]; [left|right]; exists b; (split; [|done]); rewrite Ht in Hin;
      apply elem_of_app in Hin as [Hin|?]; try done; by apply (proj1 (Forall_forall _ _) Hns) in Hin. }
  destruct (HW f x0 Hst') as (x & Hw & Hat). destruct (Hgo f x Hat) as (y & Hy & Hat'). exists y. split; [|done].
  rewrite Ht, aproj_app. by eapply walk_app.
Qed.

(** A step of running code that only concerns the runner. *)
Lemma run_pos w p st hp tr nf x : AHI hp (ARun (Co w) p :: st) tr nf -> at_pos hp (ARun (Co w) p :: st) w x ->
  is_Some (hp !! w) -> x = CRun p.
Proof.
  intros HH Hat [fr Hf]. unfold at_pos in Hat. rewrite Hf in Hat.
  pose proof (h_some _ _ _ _ _ _ HH Hf) as (_ & _ & _ & _ & Hr). assert (astat fr = SRun) as Hs by (apply Hr; left).
  rewrite Hs in Hat. destruct Hat as (p' & Hin & ->). f_equal. apply elem_of_cons in Hin as [[= ->]|Hin]; [done|].
  exfalso. pose proof (h_nd _ _ _ _ HH) as Hnd. rewrite acts_cons in Hnd. cbn in Hnd. apply NoDup_cons in Hnd as [Hn _]. apply Hn.
  apply elem_of_list_omap. by exists (ARun (Co w) p').
Qed.
Lemma run_heap w p st (hp : gmap nat frame) tr nf : AHI hp (ARun (Co w) p :: st) tr nf -> ∃ fr, hp !! w = Some fr ∧ astat fr = SRun.
Proof. intros HH. apply (h_act _ _ _ _ w HH). left. Qed.

Lemma wi_user (s s' : state) w p p' st e : AInv s -> WI s -> astack s = ARun w p :: st -> atrace s' = e :: atrace s -> nostart e ->
  aheap s' = aheap s -> (∃ l, astack s' = l ++ ARun w p' :: st ∧ Forall (λ i, ∃ ls, i = ADrops ls) l) ->
  (∀ f, w = Co f -> ∃ a, aproj1 f e = [a] ∧ aadv (CRun p) a (CRun p')) ->
  (∀ f, w ≠ Co f -> aproj1 f e = []) -> WI s'.
Proof.
  intros (HH & _) HW Hst Ht Hns Hh (l & Hst' & Hl) Hself Hoth. apply (wi_intro s s' [e]); [done|by repeat constructor| |done].
  intros f x Hat. unfold aproj. cbn. rewrite app_nil_r. destruct (decide (w = Co f)) as [->|Hne].
  - rewrite Hst in *. destruct (run_heap _ _ _ _ _ _ HH) as (fr & Hf & Hr). 
    rewrite (run_pos _ _ _ _ _ _ _ HH Hat) by eauto. destruct (Hself f eq_refl) as (a & -> & Ha). exists (CRun p'). split; [by apply walk1|].
    unfold at_pos. rewrite Hh, Hf, Hr. exists p'. split; [|done]. rewrite Hst'. apply elem_of_app. right. left.
  - rewrite Hoth by done. exists x. split; [constructor|]. eapply at_other; [by rewrite Hh| |exact Hat].
    rewrite Hst, Hst'. intros q [[= <- <-]|Hin]%elem_of_cons; [done|]. apply elem_of_app. right. by right.
Qed.

(** Transfer to the consumer. *)
Lemma back_effect f fr' oc (s s' : state) : aback f fr' oc s = ANext s' -> aheap s !! f = Some fr' ->
  (∀ g ls k, astat fr' ≠ SBegin g ls k) -> (∀ i g ls k, astat fr' ≠ SInc i g ls k) ->
  ∃ c cf i o k', c ≠ f ∧ aheap s !! c = Some cf ∧
    ((∃ g ls k, astat cf = SBegin g ls k ∧ k' = k (match o with OExc e => inr e | _ => inl i end)) ∨
     (∃ g ls k, astat cf = SInc i g ls k ∧ k' = k (match o with OExc e => Some e | _ => None end))) ∧
    aheap s' !! c = Some (fr_stat SRun cf) ∧ (∃ fr2, aheap s' !! f = Some fr2 ∧ astat fr2 = astat fr') ∧
    (∀ h, h ≠ c -> h ≠ f -> aheap s' !! h = aheap s !! h) ∧ astack s' = ARun (Co c) k' :: astack s ∧ atrace s' = AEBack c f i o :: atrace s.
Proof.
  intros Hs Hf Hnb Hni. unfold aback in Hs. destruct oc as [c|]; [|done]. destruct (aheap s !! c) as [cf|] eqn:Hc; [|done].
  assert (Hne : (∃ g ls k, astat cf = SBegin g ls k) ∨ (∃ i g ls k, astat cf = SInc i g ls k) -> c ≠ f).
  { intros Hx ->. assert (cf = fr') as -> by congruence. destruct Hx as [(g & ls & k & ?)|(i & g & ls & k & ?)]; [by eapply Hnb|by eapply Hni]. }
  set (o := if anonnull fr' then _ else _) in Hs. exists c, cf.
  assert (Hfin : ∀ (b : bool) s1, c ≠ f -> s1 = (if b then aset_frame f (fr_exc None fr') s else s) ->
    aheap (match aheap s1 !! c with Some cf => aset_frame c (fr_stat SRun cf) s1 | None => s1 end) !! c = Some (fr_stat SRun cf) ∧
    (∃ fr2, aheap (match aheap s1 !! c with Some cf => aset_frame c (fr_stat SRun cf) s1 | None => s1 end) !! f = Some fr2 ∧ astat fr2 = astat fr') ∧
    (∀ h, h ≠ c -> h ≠ f -> aheap (match aheap s1 !! c with Some cf => aset_frame c (fr_stat SRun cf) s1 | None => s1 end) !! h = aheap s !! h) ∧
    astack (match aheap s1 !! c with Some cf => aset_frame c (fr_stat SRun cf) s1 | None => s1 end) = astack s ∧
    atrace (match aheap s1 !! c with Some cf => aset_frame c (fr_stat SRun cf) s1 | None => s1 end) = atrace s).
  { intros b s1 Hcf ->.
    assert (aheap (if b then aset_frame f (fr_exc None fr') s else s) !! c = Some cf) as Hcc.
    { destruct b; [|done]. cbn. by rewrite lookup_insert_ne. }
    rewrite Hcc. cbn. rewrite lookup_insert. split; [done|]. rewrite lookup_insert_ne by done. split.
    - destruct b; cbn; [rewrite lookup_insert|]; eauto.
    - split; [|by destruct b]. intros h H1 H2. rewrite lookup_insert_ne by done. destruct b; cbn; [|done]. by rewrite lookup_insert_ne. }
  destruct (astat cf) as [| | | |f' ls k|j f' ls k|] eqn:Hscf; try done; (destruct (decide (f' = f)) as [->|]; [|done]).
  - assert (Hcf : c ≠ f) by (apply Hne; eauto). exists (ani s), o. eexists. split; [done|]. split; [done|].
    split; [left; exists f, ls, k; split; [done|reflexivity]|].
    destruct o as [| |x]; injection Hs as <-; cbn -[decide].
    + destruct (Hfin false s Hcf eq_refl) as (H1 & H2 & H3 & H4 & H5). rewrite H4, H5. done.
    + destruct (Hfin false s Hcf eq_refl) as (H1 & H2 & H3 & H4 & H5). rewrite H4, H5. done.
    + destruct (Hfin true _ Hcf eq_refl) as (H1 & H2 & H3 & H4 & H5). cbn in *. rewrite H4, H5. done.
  - assert (Hcf : c ≠ f) by (apply Hne; eauto 10). exists j, o. eexists. split; [done|]. split; [done|].
    split; [right; exists f, ls, k; split; [done|reflexivity]|].
    destruct o as [| |x]; injection Hs as <-; cbn -[decide].
    + destruct (Hfin false s Hcf eq_refl) as (H1 & H2 & H3 & H4 & H5). rewrite H4, H5. done.
    + destruct (Hfin false s Hcf eq_refl) as (H1 & H2 & H3 & H4 & H5). rewrite H4, H5. done.
    + destruct (Hfin true _ Hcf eq_refl) as (H1 & H2 & H3 & H4 & H5). cbn in *. rewrite H4, H5. done.
Qed.

Lemma wi_back (s s' : state) f fr fr' oc p st e a y : AInv s -> WI s -> astack s = ARun (Co f) p :: st -> aheap s !! f = Some fr ->
  aback f fr' oc (aemit e (aset_frame f fr' (aset_stack st s))) = ANext s' ->
  nostart e -> aproj1 f e = [a] -> (∀ h, h ≠ f -> aproj1 h e = []) -> aadv (CRun p) a y ->
  match astat fr' with SYield _ _ q => y = CSusp q | SFinal => y = CEnd | _ => False end -> WI s'.
Proof.
  intros (HH & _) HW Hst Hf Hs Hns Hp Hp0 Ha Hy.
  apply back_effect in Hs as (c & cf & i & o & k' & Hcf & Hc & Hk & Hc' & (fr2 & Hf2 & Hs2) & Hoth & Hst' & Ht).
  2:{ cbn. by rewrite lookup_insert. }
  2:{ intros g ls k Hx. by rewrite Hx in Hy. }
  2:{ intros j g ls k Hx. by rewrite Hx in Hy. }
  cbn in *. rewrite lookup_insert_ne in Hc by done.
  apply (wi_intro s s' [AEBack c f i o; e]); [done|by repeat constructor| |done].
  intros h x Hat. unfold aproj. cbn [flat_map aproj1]. destruct (decide (h = c)) as [->|Hhc]; [|destruct (decide (h = f)) as [->|Hhf]].
  - rewrite Hp0 by done. exists (CRun k'). split; [|unfold at_pos; rewrite Hc'; exists k'; split; [rewrite Hst'; left|done]].
    cbn. unfold at_pos in Hat. rewrite Hc in Hat. destruct Hk as [(g & ls & k & Hk & ->)|(g & ls & k & Hk & ->)]; rewrite Hk in Hat; subst x; apply walk1; constructor.
  - rewrite Hp. cbn. rewrite Hst in *. rewrite (run_pos _ _ _ _ _ _ _ HH Hat) by eauto. exists y. split; [by apply walk1|].
    unfold at_pos. rewrite Hf2, Hs2. destruct (astat fr'); done.
  - rewrite Hp0 by done. exists x. split; [constructor|]. eapply at_other; [|  |exact Hat].
    + rewrite Hoth by done. by rewrite lookup_insert_ne.
    + rewrite Hst, Hst'. intros q [[= <- <-]|Hin]%elem_of_cons; [done|by right].
Qed.

(** co_await of begin()/++. *)
Lemma wi_go (s s' : state) c f j p st fr x0 y : AInv s -> WI s -> astack s = ARun (Co c) p :: st -> aheap s !! c = Some fr ->
  ago c f j (aset_frame c (fr_stat x0 fr) (aset_stack st s)) = ANext s' ->
  aadv (CRun p) (LWait j) y -> match x0 with SBegin _ _ k => y = CBeginW k | SInc i _ _ k => y = CIncW i k | _ => False end -> WI s'.
Proof.
  intros (HH & _) HW Hst Hc Hs Ha Hy. unfold ago in Hs. cbn in Hs.
  destruct (<[c:=fr_stat x0 fr]> (aheap s) !! f) as [ff|] eqn:Hf; [|done].
  assert (Hne : c ≠ f). { intros ->. rewrite lookup_insert in Hf. injection Hf as <-. cbn in Hs. by destruct x0. }
  rewrite lookup_insert_ne in Hf by done.
  assert (∃ q, s' = apush (ARun (Co f) q) (aemit (AEAdv c f j) (aset_frame f (fr_stat SRun (fr_cons c ff)) (aset_frame c (fr_stat x0 fr) (aset_stack st s)))) ∧
     ((astat ff = SInit q) ∨ ∃ v ls, astat ff = SYield v ls q)) as (q & -> & Hq).
  { destruct (astat ff) eqn:E0; try done; injection Hs as <-; eauto 10. }
  apply (wi_intro s _ [AEAdv c f j]); [done|by repeat constructor| |done].
  intros h x Hat. unfold aproj. cbn [flat_map aproj1]. rewrite app_nil_r. destruct (decide (h = c)) as [->|Hhc]; [|destruct (decide (h = f)) as [->|Hhf]].
  - rewrite decide_False by done. rewrite Hst in *. rewrite (run_pos _ _ _ _ _ _ _ HH Hat) by eauto. exists y. split; [by apply walk1|].
    unfold at_pos. cbn. rewrite lookup_insert_ne, lookup_insert by done. cbn. by destruct x0.
  - cbn. unfold at_pos in *. rewrite Hf in Hat. cbn. rewrite lookup_insert. cbn. exists (CRun q). split; [|exists q; split; [left|done]].
    apply walk1. destruct Hq as [Hq|(v & ls & Hq)]; rewrite Hq in Hat; subst x; constructor.
  - exists x. split; [constructor|]. eapply at_other; [| |exact Hat]; cbn.
    + by rewrite !lookup_insert_ne.
    + rewrite Hst. intros q' [[= <- <-]|Hin]%elem_of_cons; [done|by right].
Qed.

Lemma none_proj f (tr : list event) : alegal_trace tr -> aphase_of f tr = QNone -> aproj f tr = [].
Proof.
  induction tr as [|e l IH]; [done|]. intros [[_ He] Hl] Hp. unfold aproj. cbn [flat_map].
  assert (aproj1 f e = [] ∧ aphase_of f l = QNone) as [-> Hn]; [|by apply IH].
  destruct e as [g b|g b|c g i|c g i o|g v|g r|g r|g x|g v|g|w o|w a]; cbn in *;
    repeat (destruct (decide (f = _)) as [<-|]; try done).
  - destruct (decide _) as [<-|]; [|done]. cbn in He. congruence.
  - destruct (decide _) as [<-|]; [|done]. cbn in He. destruct He. congruence.
Qed.
Lemma none_starts f x0 (tr : list event) : alegal_trace tr -> aphase_of f tr = QNone -> ¬ starts f x0 tr.
Proof.
  induction tr as [|e l IH]; [intros _ _ [(b & ?%elem_of_nil & _)|(b & ?%elem_of_nil & _)]; done|]. intros [[_ He] Hl] Hp Hst.
  assert (Hn : aphase_of f l = QNone ∧ (∀ b, e ≠ AENew f b) ∧ ∀ b, e ≠ AESpawn f b).
  { destruct e as [g b|g b|c g i|c g i o|g v|g r|g r|g x|g v|g|w o|w a]; cbn in *; repeat (destruct (decide (f = _)) as [<-|]; try done);
      (split; [done|]; split; congruence). }
  destruct Hn as (Hn & H1 & H2). apply (IH Hl Hn).
  destruct Hst as [(b & [Hb|Hb]%elem_of_cons & ->)|(b & [Hb|Hb]%elem_of_cons & ->)]; [by destruct (H1 b)|left; eauto|by destruct (H2 b)|right; eauto].
Qed.

(** A new coroutine appears. *)
Lemma wi_birth (s s' : state) w p p' st a e f0 fr0 (x0 : pos) (l : list item) : AInv s -> WI s -> astack s = ARun w p :: st ->
  atrace s' = e :: AEAct w a :: atrace s -> f0 = anf s -> ((∃ b, e = AENew f0 b ∧ x0 = CStart b) ∨ (∃ b, e = AESpawn f0 b ∧ x0 = CRun b)) ->
  aheap s' = <[f0 := fr0]> (aheap s) -> astack s' = l ++ ARun w p' :: st ->
  at_pos (aheap s') (astack s') f0 x0 -> aadv (CRun p) (LAct a) (CRun p') -> WI s'.
Proof.
  intros (HH & _) HW Hst Ht -> He Hh Hst' Hat0 Ha.
  destruct (h_fresh _ _ _ _ HH (anf s)) as (Hn & Hp & _); [done|].
  assert (Hpe : ∀ f, aproj1 f e = []) by (destruct He as [(b & -> & _)|(b & -> & _)]; done).
  intros f y0 Hys. rewrite Ht. destruct (decide (f = anf s)) as [->|Hne].
  - assert (y0 = x0) as ->.
    { rewrite Ht in Hys. destruct He as [(b & -> & ->)|(b & -> & ->)];
        destruct Hys as [(b' & [[= ->]|[?|Hin]%elem_of_cons]%elem_of_cons & ->)|(b' & [[= ->]|[?|Hin]%elem_of_cons]%elem_of_cons & ->)]; try done; exfalso;
        (eapply (none_starts (anf s)); [apply (h_legal _ _ _ _ HH)|done|]); first [left; by eauto|right; by eauto]. }
    exists x0. split; [|done]. unfold aproj. cbn [flat_map]. rewrite Hpe. cbn [app aproj1]. rewrite decide_False.
    2:{ intros <-. assert (Co (anf s) ∈ acts (astack s)) as Hin by (rewrite Hst; left). by destruct (h_none _ _ _ _ _ HH Hn). }
    pose proof (none_proj (anf s) _ (h_legal _ _ _ _ HH) Hp) as Hz. unfold aproj in Hz. rewrite Hz. constructor.
  - assert (Hys' : starts f y0 (atrace s)).
    { rewrite Ht in Hys. destruct Hys as [(b & [Hb|[?|Hb]%elem_of_cons]%elem_of_cons & ->)|(b & [Hb|[?|Hb]%elem_of_cons]%elem_of_cons & ->)]; try done;
        [destruct He as [(? & -> & _)|(? & -> & _)]; congruence|left; eauto|destruct He as [(? & -> & _)|(? & -> & _)]; congruence|right; eauto]. }
    destruct (HW f y0 Hys') as (x & Hw & Hat). unfold aproj. cbn [flat_map]. rewrite Hpe. cbn [app aproj1].
    destruct (decide (Co f = w)) as [<-|Hnw].
    + rewrite Hst in *. destruct (run_heap _ _ _ _ _ _ HH) as (fr & Hf & Hr). assert (x = CRun p) as -> by (eapply run_pos; eauto).
      exists (CRun p'). split; [by econstructor|]. unfold at_pos. rewrite Hh, lookup_insert_ne, Hf, Hr by done. exists p'. split; [|done].
      rewrite Hst'. apply elem_of_app. right. left.
    + exists x. split; [done|]. eapply at_other; [| |exact Hat].
      * by rewrite Hh, lookup_insert_ne.
      * rewrite Hst, Hst'. intros q [[= <- <-]|Hin]%elem_of_cons; [done|]. apply elem_of_app. right. by right.
Qed.

Lemma wi_gone (s s' : state) f e : WI s -> atrace s' = e :: atrace s -> nostart e -> aheap s' = delete f (aheap s) ->
  (∀ h p, h ≠ f -> ARun (Co h) p ∈ astack s -> ARun (Co h) p ∈ astack s') -> (∀ h, h ≠ f -> aproj1 h e = []) ->
  (∀ x, at_pos (aheap s) (astack s) f x -> ∃ y, awalk x (aproj1 f e) y) -> WI s'.
Proof.
  intros HW Ht Hns Hh Hst Hp Hf. apply (wi_intro s s' [e]); [done|by repeat constructor| |done].
  intros h x Hat. unfold aproj. cbn. rewrite app_nil_r. destruct (decide (h = f)) as [->|Hne].
  - destruct (Hf x Hat) as [y Hy]. exists y. split; [done|]. unfold at_pos. by rewrite Hh, lookup_delete.
  - rewrite Hp by done. exists x. split; [constructor|]. eapply at_other; [| |exact Hat]; [by rewrite Hh, lookup_delete_ne|by eauto].
Qed.

Lemma wi_destroy f (s s' : state) : WI s -> adestroy f s = ANext s' -> WI s'.
Proof.
  intros HW Hs. unfold adestroy in Hs. destruct (aheap s !! f) as [fr|] eqn:Hf; [|done].
  assert (atrace s' = AEDestroy f :: atrace s ∧ aheap s' = delete f (aheap s) ∧ ∃ ls, astack s' = ADrops ls :: astack s) as (H1 & H2 & ls & H3).
  { destruct (astat fr) as [| | |pid [] ls c| | |]; try done; injection Hs as <-; cbn; eauto 10. }
  eapply (wi_gone s s' f); [done|exact H1|done|exact H2| |done|].
  - intros h p _ Hin. rewrite H3. by right.
  - intros x _. cbn. exists x. constructor.
Qed.
Lemma wi_same (s s' : state) : WI s -> atrace s' = atrace s -> aheap s' = aheap s ->
  (∀ h p, ARun (Co h) p ∈ astack s -> ARun (Co h) p ∈ astack s') -> WI s'.
Proof.
  intros HW Ht Hh Hst. apply (wi_intro s s' []); [by rewrite Ht|constructor| |done].
  intros f x Hat. exists x. split; [constructor|]. eapply at_other; [| |exact Hat]; [by rewrite Hh|by eauto].
Qed.
Lemma wi_drop g (s s' : state) : WI s -> adrop g s = ANext s' -> WI s'.
Proof.
  intros HW Hs. unfold adrop in Hs. destruct (agens s !! g) as [[f|]|]; [| |done].
  - by eapply wi_destroy; [|exact Hs].
  - injection Hs as <-. by eapply wi_same.
Qed.

Lemma wi_next (s s' : state) : AInv s -> anext s s' -> WI s -> WI s'.
Proof.
  intros HI Hn HW. pose proof HI as (HH & _). destruct Hn as [Hs|[e Hs]].
  - unfold astep in Hs. destruct (astack s) as [|[w p|[|g l]] st] eqn:Hst; [done|..].
    + assert (Hdec1 : ∀ f o, w = Co f -> aproj1 f (AEObs w o : event) = [LObs o]) by (intros f o ->; cbn; by rewrite decide_True).
      assert (Hdec2 : ∀ f a, w = Co f -> aproj1 f (AEAct w a : event) = [LAct a]) by (intros f a ->; cbn; by rewrite decide_True).
      assert (Hdec3 : ∀ f o, w ≠ Co f -> aproj1 f (AEObs w o : event) = []) by (intros f o Hx; cbn; by rewrite decide_False).
      assert (Hdec4 : ∀ f a, w ≠ Co f -> aproj1 f (AEAct w a : event) = []) by (intros f a Hx; cbn; by rewrite decide_False).
      assert (Hact : ∀ a p' s2, s' = apush (ARun w p') (aemit (AEAct w a) s2) -> atrace s2 = atrace s -> aheap s2 = aheap s -> astack s2 = st ->
        aadv (CRun p) (LAct a) (CRun p') -> WI s').
      { intros a p' s2 -> Ht2 Hh2 Hs2 Ha. eapply (wi_user s _ w p p' st (AEAct w a)); [done|done|done|cbn; by rewrite Ht2|done|done|exists []; cbn; by rewrite Hs2| |eauto].
        intros f Hw. exists (LAct a). eauto. }
      destruct p as [|e|o p|v ls p|safe ls c|b p|b c|c|g c|g g2 p|g g2 p|g p|g ls c|c|j c|j ls c|j c|j j2 c]; cbn in Hs.
      * destruct w as [f|n].
        2:{ injection Hs as <-. eapply wi_same; [done|done|done|]. cbn. rewrite Hst. intros h q [?|?]%elem_of_cons; done. }
        destruct (aheap s !! f) as [fr|] eqn:Hf; [|done]. destruct (aprod fr).
        -- eapply (wi_back s s' f fr _ _ _ st (AEFinish f None) _ CEnd); [done|done|done|done|exact Hs|done|cbn; by rewrite decide_True|intros h Hx; cbn; by rewrite decide_False|constructor|done].
        -- injection Hs as <-. eapply (wi_gone s _ f); [done|done|done|done| |intros h Hx; cbn; by rewrite decide_False|].
           ++ cbn. rewrite Hst. intros h q Hx [[= <-]|?]%elem_of_cons; done.
           ++ cbn. rewrite decide_True by done. intros x Hat. rewrite Hst in *. assert (x = CRun ARet) as -> by (eapply run_pos; eauto). eexists. apply walk1. constructor.
      * destruct w as [f|n]; [|done]. destruct (aheap s !! f) as [fr|] eqn:Hf; [|done]. destruct (aprod fr).
        -- eapply (wi_back s s' f fr _ _ _ st (AEFinish f (Some e)) _ CEnd); [done|done|done|done|exact Hs|done|cbn; by rewrite decide_True|intros h Hx; cbn; by rewrite decide_False|constructor|done].
        -- injection Hs as <-. eapply (wi_gone s _ f); [done|done|done|done| |intros h Hx; cbn; by rewrite decide_False|].
           ++ cbn. rewrite Hst. intros h q Hx [[= <-]|?]%elem_of_cons; done.
           ++ cbn. rewrite decide_True by done. intros x Hat. rewrite Hst in *. assert (x = CRun (AThrow e)) as -> by (eapply run_pos; eauto). eexists. apply walk1. constructor.
      * injection Hs as <-. eapply (wi_user s _ w _ p st (AEObs w o)); [done|done|done|done|done|done|by exists []| |eauto].
        intros f Hw. exists (LObs o). split; [eauto|constructor].
      * destruct w as [f|n]; [|done]. destruct (aheap s !! f) as [fr|] eqn:Hf; [|done]. destruct (aprod fr); [|done].
        eapply (wi_back s s' f fr _ _ _ st (AEYield f v) _ (CSusp p)); [done|done|done|done|exact Hs|done|cbn; by rewrite decide_True|intros h Hx; cbn; by rewrite decide_False|constructor|done].
      * destruct w as [f|n]; [|done]. destruct (aheap s !! f) as [fr|] eqn:Hf; [|done]. injection Hs as <-.
        apply (wi_intro s _ [AELeaf f safe]); [done|by repeat constructor| |done].
        intros h x Hat. unfold aproj. cbn [flat_map aproj1]. rewrite app_nil_r. destruct (decide (h = f)) as [->|Hne].
        -- rewrite Hst in *. assert (x = CRun (ALeaf safe ls c)) as -> by (eapply run_pos; eauto). exists (CLeafW c). split; [apply walk1; constructor|].
           unfold at_pos. cbn. by rewrite lookup_insert.
        -- exists x. split; [constructor|]. eapply at_other; [cbn; by rewrite lookup_insert_ne| |exact Hat]. cbn. rewrite Hst. intros q [[= ? ?]|?]%elem_of_cons; done.
      * injection Hs as <-. eapply (wi_birth s _ w _ p st _ (AESpawn (anf s) b) (anf s) _ (CRun b) [ARun (Co (anf s)) b]); [done|done|done|done|done|right; eauto|done|done| |constructor].
        unfold at_pos. cbn. rewrite lookup_insert. cbn. exists b. split; [left|done].
      * injection Hs as <-. eapply (wi_birth s _ w _ _ st _ (AENew (anf s) b) (anf s) _ (CStart b) []); [done|done|done|done|done|left; eauto|done|done| |constructor].
        unfold at_pos. cbn. rewrite lookup_insert. done.
      * injection Hs as <-. eapply Hact; [reflexivity|done|done|done|constructor].
      * destruct (agens s !! g) as [h|] eqn:Hg; [|done]. injection Hs as <-. eapply Hact; [reflexivity|done|done|done|constructor].
      * destruct (agens s !! g) as [h|] eqn:Hg; [|done]. destruct (agens s !! g2) as [h2|] eqn:Hg2; [|done]. injection Hs as <-. eapply Hact; [reflexivity|done|done|done|constructor].
      * destruct (agens s !! g) as [h|] eqn:Hg; [|done]. destruct (agens s !! g2) as [h2|] eqn:Hg2; [|done]. injection Hs as <-. eapply Hact; [reflexivity|done|done|done|constructor].
      * eapply wi_drop; [|exact Hs]. eapply (wi_user s _ w _ p st (AEAct w (XDrop g))); [done|done|done|done|done|done|by exists []| |eauto].
        intros f Hw. exists (LAct (XDrop g)). split; [eauto|constructor].
      * destruct w as [f|n]; [|done]. destruct (agens s !! g) as [[f'|]|]; [| |done].
        -- destruct (aheap s !! f) as [fr|] eqn:Hf; [|done]. eapply (wi_go s s' f f' None); [done|done|done|done|exact Hs|constructor|done].
        -- injection Hs as <-. eapply Hact; [reflexivity|done|done|done|constructor].
      * injection Hs as <-. eapply Hact; [reflexivity|done|done|done|constructor].
      * destruct (aiters s !! j); [|done]. injection Hs as <-. eapply Hact; [reflexivity|done|done|done|constructor].
      * destruct w as [f|n]; [|done]. destruct (aiters s !! j) as [[f'|]|]; [|done|done].
        destruct (aheap s !! f) as [fr|] eqn:Hf; [|done]. eapply (wi_go s s' f f' (Some j)); [done|done|done|done|exact Hs|constructor|done].
      * destruct (aiters s !! j) as [[f'|]|]; [|done|done]. destruct (aheap s !! f') as [fr|]; [|done]. destruct (anonnull fr); [|done].
        destruct (astat fr); try done. injection Hs as <-. eapply Hact; [reflexivity|done|done|done|constructor].
      * destruct (aiters s !! j); [|done]. destruct (aiters s !! j2); [|done]. injection Hs as <-. eapply Hact; [reflexivity|done|done|done|constructor].
    + injection Hs as <-. eapply wi_same; [done|done|done|]. cbn. rewrite Hst. intros h q [?|?]%elem_of_cons; done.
    + eapply wi_drop; [|exact Hs]. eapply wi_same; [done|done|done|]. cbn. rewrite Hst. intros h q [?|?]%elem_of_cons; [done|by right].
  - unfold aenv_step in Hs. destruct (astack s) eqn:Hst; [|done]. destruct e as [p|pid v].
    + injection Hs as <-. eapply wi_same; [done|done|done|]. cbn. rewrite Hst. by intros h q ?%elem_of_nil.
    + destruct (apend s !! pid) as [f|] eqn:Hp; [|done]. destruct (aheap s !! f) as [fr|] eqn:Hf; [|done].
      destruct (astat fr) as [| | |pid' safe ls c| | |] eqn:Hsf; try done. destruct (decide (pid' = pid)) as [->|]; [|done].
      injection Hs as <-. apply (wi_intro s _ [AEFire f v]); [done|by repeat constructor| |done].
      intros h x Hat. unfold aproj. cbn [flat_map aproj1]. rewrite app_nil_r. destruct (decide (h = f)) as [->|Hne].
      * unfold at_pos in Hat. rewrite Hf, Hsf in Hat. subst x. exists (CRun (c v)). split; [apply walk1; constructor|].
        unfold at_pos. cbn. rewrite lookup_insert. cbn. exists (c v). split; [left|done].
      * exists x. split; [constructor|]. eapply at_other; [cbn; by rewrite lookup_insert_ne| |exact Hat]. rewrite Hst. by intros q ?%elem_of_nil.
Qed.
Lemma wi_reach (s : state) : areach s -> WI s.
Proof.
  intros HR. unfold areach in HR. remember ainit as s0 eqn:E0.
  induction HR as [s|s s1 s2 H1 IH Hs|s s1 s2 e H1 IH Hs]; subst.
  - intros f x0 [(b & ?%elem_of_nil & _)|(b & ?%elem_of_nil & _)]; done.
  - apply (wi_next s1); [by apply inv_reach|by left|by apply IH].
  - apply (wi_next s1); [by apply inv_reach|right; by exists e|by apply IH].
Qed.

(** ** Plain producers *)
Definition lyield (e : alev V E) : list V := match e with LYield v => [v] | _ => [] end.
Fixpoint lyields (l : list (alev V E)) : list V := match l with [] => [] | e :: l => lyields l ++ lyield e end.
Lemma proj_yielded f (tr : list event) : lyields (aproj f tr) = ayielded f tr.
Proof.
  induction tr as [|e l IH]; [done|]. unfold aproj in *. cbn [flat_map].
  assert (H : ∀ a b, lyields (a ++ b) = lyields b ++ lyields a).
  { intros a b. induction a as [|x a IHa]; cbn; [by rewrite app_nil_r|]. by rewrite IHa, app_assoc. }
  rewrite H, IH. destruct e as [g b|g b|c g i|c g i o|g v|g r|g r|g x|g v|g|w o|w a]; cbn;
    repeat (destruct (decide _)); cbn; by rewrite ?app_nil_r.
Qed.
(** What is left to yield at a position of a plain body. *)
Inductive yleft : pos -> list V -> option E -> Prop :=
  | yl_start b vs r : ayields b vs r -> yleft (CStart b) vs r
  | yl_run p vs r : ayields p vs r -> yleft (CRun p) vs r
  | yl_susp p vs r : ayields p vs r -> yleft (CSusp p) vs r
  | yl_leaf c vs r : (∀ v, ayields (c v) vs r) -> yleft (CLeafW c) vs r.
Lemma yleft_step x e y vs r : yleft x vs r -> aadv x e y ->
  match e with LEnd r' => r' = r ∧ vs = [] ∧ y = CEnd | _ => ∃ vs', vs = lyield e ++ vs' ∧ yleft y vs' r end.
Proof.
  intros Hy Ha. inversion Hy as [? ? ? H|? ? ? H|? ? ? H|? ? ? H]; subst; inversion Ha; subst; cbn; try (inversion H; subst); eauto 6 using yleft.
Qed.
Lemma walk_yields x0 l x vs r : yleft x0 vs r -> awalk x0 l x ->
  (∃ vs', vs = lyields l ++ vs' ∧ yleft x vs' r) ∨ (vs = lyields l ∧ x = CEnd ∧ ∃ l', l = LEnd r :: l').
Proof.
  intros H0. induction 1 as [|l x e y Hw IH Ha]; [left; eauto|]. destruct IH as [(vs' & -> & Hy)|(-> & -> & _)]; [|inversion Ha].
  pose proof (yleft_step _ _ _ _ _ Hy Ha) as Hs. destruct e as [|v|r'|o|a|b|v|i|i o].
  3:{ destruct Hs as (-> & -> & ->). right. cbn. by rewrite !app_nil_r; eauto. }
  all: destruct Hs as (vs'' & -> & Hy'); left; exists vs''; cbn; rewrite ?app_nil_r, <- ?app_assoc; done.
Qed.
Lemma end_finish f (tr : list event) r : alegal_trace tr -> made f tr = true -> LEnd r ∈ aproj f tr <-> AEFinish f r ∈ tr.
Proof.
  intros Hl Hm. split.
  - intros (e & Hin & He)%elem_of_list_In%in_flat_map. apply elem_of_list_In in Hin, He.
    destruct e as [g b|g b|c g i|c g i o|g v|g r'|g r'|g x|g v|g|w o|w a]; cbn in He; repeat (destruct (decide (_ = _)) as [<-|] in He); cbn in He;
      rewrite ?elem_of_cons, ?elem_of_nil in He; repeat (destruct He as [He|He]; try done); try (injection He as <-); try done.
    exfalso. apply elem_of_list_split in Hin as (l1 & l2 & ->).
    pose proof (alegal_app _ _ _ Hl) as [(_ & Hr & Hml) Hl2].
    assert (Hx : ∀ l1, alegal_trace (l1 ++ AEEnd f r :: l2) -> made f (l1 ++ AEEnd f r :: l2) = false ∧ aphase_of f (l1 ++ AEEnd f r :: l2) = QGone); [|].
    { clear Hm Hl l1. intros l1. induction l1 as [|e l1 IH]; cbn [app]; [intros _; cbn; by rewrite decide_True|].
      intros [He Hl]. destruct (IH Hl) as [H1 H2]. split; [|by apply gone_abs]. destruct e; try done. cbn. destruct (decide _) as [<-|]; [|done].
      destruct He as [_ He]. cbn in He. congruence. }
    destruct (Hx l1 Hl). congruence.
  - intros Hin. apply elem_of_list_In, in_flat_map. exists (AEFinish f r). split; [by apply elem_of_list_In|]. cbn. rewrite decide_True by done. by left.
Qed.
End walk.
