(** * QCORO_FOREACH over an AsyncGenerator, for every schedule. *)
From stdpp Require Import gmap list.
From Verif Require Import AGenModel AGenSpec AGenInv AGenStep AGenFacts AGenWait.

Section loop.
Context {V E : Type}.
Notation state := (astate V E). Notation item := (aitem V E). Notation frame := (aframe V E).
Notation event := (aevent V E). Notation prog := (aprog V E).

Definition afrob (p : prog) : prog :=
  match p with
  | ARet => ARet | AThrow e => AThrow e | AObs o p => AObs o p | AYield v ls p => AYield v ls p | ALeaf s ls c => ALeaf s ls c
  | ASpawn b p => ASpawn b p | ANew b c => ANew b c | ANull c => ANull c | AMove g c => AMove g c | AAssign g h p => AAssign g h p
  | ASwap g h p => ASwap g h p | ADrop g p => ADrop g p | ABegin g ls c => ABegin g ls c | AEnd c => AEnd c | ACopy i c => ACopy i c
  | AInc i ls c => AInc i ls c | ADeref i c => ADeref i c | AEq i j c => AEq i j c
  end.
Lemma afrob_eq p : p = afrob p.
Proof. by destruct p. Qed.

Lemma exec_next (s0 s s' : state) : aexec s0 s -> anext s s' -> aexec s0 s'.
Proof. intros H [?|[? ?]]; [by eapply aexec_step|by eapply aexec_env]. Qed.

Lemma next_suffix (s s' : state) : anext s s' -> ∃ evs, atrace s' = evs ++ atrace s.
Proof.
  assert (Hd : ∀ f (s0 s s' : state) evs, atrace s = evs ++ atrace s0 -> adestroy f s = ANext s' -> ∃ evs, atrace s' = evs ++ atrace s0).
  { intros f s0 s1 s2 evs He. unfold adestroy. destruct (aheap s1 !! f) as [fr|]; [|done]. intros Hs. exists (AEDestroy f :: evs).
    destruct (astat fr) as [| | |pid [] ls c| | |]; try done; injection Hs as <-; cbn; by rewrite He. }
  assert (Hdr : ∀ g (s0 s s' : state) evs, atrace s = evs ++ atrace s0 -> adrop g s = ANext s' -> ∃ evs, atrace s' = evs ++ atrace s0).
  { intros g s0 s1 s2 evs He. unfold adrop. destruct (agens s1 !! g) as [[f|]|]; [| |done]; [by eapply Hd|]. intros [= <-]. by exists evs. }
  assert (Hgo : ∀ c f j (s0 s s' : state), atrace s = atrace s0 -> ago c f j s = ANext s' -> ∃ evs, atrace s' = evs ++ atrace s0).
  { intros c f j s0 s1 s2 He. unfold ago. destruct (aheap s1 !! f) as [fr|]; [|done]. intros Hs. exists [AEAdv c f j].
    destruct (astat fr); try done; injection Hs as <-; cbn; by rewrite He. }
  assert (Hb : ∀ f fr oc (s0 s s' : state) evs, atrace s = evs ++ atrace s0 -> aback f fr oc s = ANext s' -> ∃ evs, atrace s' = evs ++ atrace s0).
  { intros f fr oc s0 s1 s2 evs He. unfold aback. destruct oc as [c|]; [|done]. destruct (aheap s1 !! c) as [cf|]; [|done].
    set (o := if anonnull fr then _ else _). set (s3 := match o with OExc _ => _ | _ => _ end).
    assert (Ht : atrace s3 = atrace s1) by (unfold s3; by destruct o). clearbody s3. clearbody o.
    set (r := match aheap s3 !! c with Some _ => _ | None => _ end). assert (Hr : atrace r = atrace s1) by (unfold r; by destruct (aheap s3 !! c)). clearbody r.
    intros Hs. destruct (astat cf) as [| | | |f' ls k|i f' ls k|]; try done; (destruct (decide (f' = f)) as [->|]; [|done]);
      destruct o; injection Hs as <-; cbn; rewrite Hr, He; by eexists (_ :: evs). }
  intros [Hs|[e Hs]].
  - unfold astep in Hs. destruct (astack s) as [|[w' p|[|g l]] st] eqn:Hst; [done|..].
    + destruct p as [|e|o p|v ls p|safe ls c|b p|b c|c|g c|g g2 p|g g2 p|g p|g ls c|c|j c|j ls c|j c|j j2 c]; cbn in Hs.
      * destruct w' as [f|n]; [|injection Hs as <-; by exists []].
        destruct (aheap s !! f) as [fr|] eqn:Hf; [|done]. destruct (aprod fr); [|injection Hs as <-; by eexists [_]].
        eapply Hb in Hs; [exact Hs|by instantiate (1 := [_])].
      * destruct w' as [f|n]; [|done].
        destruct (aheap s !! f) as [fr|] eqn:Hf; [|done]. destruct (aprod fr); [|injection Hs as <-; by eexists [_]].
        eapply Hb in Hs; [exact Hs|by instantiate (1 := [_])].
      * injection Hs as <-. by eexists [_].
      * destruct w' as [f|n]; [|done]. destruct (aheap s !! f) as [fr|] eqn:Hf; [|done]. destruct (aprod fr); [|done].
        eapply Hb in Hs; [exact Hs|by instantiate (1 := [_])].
      * destruct w' as [f|n]; [|done]. destruct (aheap s !! f) as [fr|] eqn:Hf; [|done]. injection Hs as <-. by eexists [_].
      * injection Hs as <-. by eexists [_; _].
      * injection Hs as <-. by eexists [_; _].
      * injection Hs as <-. by eexists [_].
      * destruct (agens s !! g); [|done]. injection Hs as <-. by eexists [_].
      * destruct (agens s !! g); [|done]. destruct (agens s !! g2); [|done]. injection Hs as <-. by eexists [_].
      * destruct (agens s !! g); [|done]. destruct (agens s !! g2); [|done]. injection Hs as <-. by eexists [_].
      * eapply Hdr in Hs; [exact Hs|by instantiate (1 := [_])].
      * destruct w' as [f|n]; [|done]. destruct (agens s !! g) as [[f'|]|]; [| |done].
        -- destruct (aheap s !! f) as [fr|] eqn:Hf; [|done]. by eapply Hgo in Hs.
        -- injection Hs as <-. by eexists [_].
      * injection Hs as <-. by eexists [_].
      * destruct (aiters s !! j); [|done]. injection Hs as <-. by eexists [_].
      * destruct w' as [f|n]; [|done]. destruct (aiters s !! j) as [[f'|]|]; [|done|done].
        destruct (aheap s !! f) as [fr|] eqn:Hf; [|done]. by eapply Hgo in Hs.
      * destruct (aiters s !! j) as [[f'|]|]; [|done|done]. destruct (aheap s !! f') as [fr|]; [|done]. destruct (anonnull fr); [|done].
        destruct (astat fr); try done. injection Hs as <-. by eexists [_].
      * destruct (aiters s !! j); [|done]. destruct (aiters s !! j2); [|done]. injection Hs as <-. by eexists [_].
    + injection Hs as <-. by exists [].
    + eapply Hdr in Hs; [exact Hs|by instantiate (1 := [])].
  - unfold aenv_step in Hs. destruct (astack s) eqn:Hst; [|done]. destruct e as [p|pid v].
    + injection Hs as <-. by exists [].
    + destruct (apend s !! pid) as [f|] eqn:Hp; [|done]. destruct (aheap s !! f) as [fr|] eqn:Hf; [|done].
      destruct (astat fr) as [| | |pid' safe ls c| | |] eqn:Hsf; try done. destruct (decide (pid' = pid)) as [->|]; [|done].
      injection Hs as <-. by eexists [_].
Qed.
Lemma exec_suffix (s s' : state) : aexec s s' -> ∃ evs, atrace s' = evs ++ atrace s.
Proof.
  induction 1 as [s|s s1 s2 _ [evs IH] Hs|s s1 s2 e _ [evs IH] Hs]; [by exists []|..].
  - destruct (next_suffix s1 s2) as [evs' He]; [by left|]. exists (evs' ++ evs). by rewrite He, IH, app_assoc.
  - destruct (next_suffix s1 s2) as [evs' He]; [right; by exists e|]. exists (evs' ++ evs). by rewrite He, IH, app_assoc.
Qed.

(** ** While a coroutine waits *)
Lemma destruct_last_or {A} (l : list A) : l = [] ∨ ∃ l' x, l = l' ++ [x].
Proof. destruct l as [|x l' _] using rev_ind; eauto. Qed.
Definition quietly (w : nat) (evs tr : list event) : Prop := ∀ l1 e l2, evs = l1 ++ e :: l2 -> aphase_of w (l2 ++ tr) = aphase_of w tr.
Lemma quietly_tail w e evs tr : quietly w (e :: evs) tr -> quietly w evs tr.
Proof. intros H l1 x l2 ->. by apply (H (e :: l1) x l2). Qed.

Lemma quiet_got w evs tr : alegal_trace (evs ++ tr) -> quietly w evs tr -> aphase_of w tr ≠ QRun -> agot (Co w) (evs ++ tr) = agot (Co w) tr.
Proof.
  induction evs as [|e evs IH]; [done|]. cbn [app]. intros [He Hl] Hq Hr. rewrite got_keeps; [|done|].
  - apply IH; [done|by eapply quietly_tail|done].
  - by rewrite (Hq [] e evs).
Qed.

Lemma quiet_yield w f v evs tr : alegal_trace (evs ++ tr) -> quietly w evs tr -> aphase_of w tr ≠ QRun -> aphase_of f tr = QYield v ->
  (∀ w' j, w' ≠ w -> AEAdv w' f j ∉ evs ++ tr) -> AEDestroy f ∉ evs ++ tr ->
  aphase_of f (evs ++ tr) = QYield v ∧ ayielded f (evs ++ tr) = ayielded f tr.
Proof.
  induction evs as [|e evs IH]; [done|]. cbn [app]. intros [He Hl] Hq Hr Hf Ha Hd.
  destruct IH as [IH1 IH2]; [done|by eapply quietly_tail|done|done| |by intros ?; apply Hd; right|].
  { intros w' j Hw Hin. apply (Ha w' j Hw). by right. }
  rewrite <- IH2. apply yield_keeps; [done|done| |].
  - intros c j ->. destruct (decide (c = w)) as [->|Hc]; [|apply (Ha c j Hc); left].
    destruct He as (_ & _ & He & _). by rewrite (Hq [] (AEAdv w f j) evs) in He.
  - intros ->. apply Hd. left.
Qed.

Lemma quiet_wait w f j evs tr : alegal_trace (evs ++ tr) -> quietly w evs tr -> aphase_of w tr = QWait f j ->
  aphase_of w (evs ++ tr) = QWait f j -> settled (evs ++ tr) -> ayielded f (evs ++ tr) = ayielded f tr.
Proof.
  intros Hl Hq Hw Hw' Hs.
  assert (Hno : ∀ l1 e l2, evs = l1 ++ e :: l2 -> out_of f e = None).
  { intros l1 e l2 ->. destruct (out_of f e) as [o|] eqn:Ho; [exfalso|done].
    destruct (destruct_last_or l1) as [->|(l1' & b & ->)].
    { cbn in Hs. apply Hs. by destruct e. }
    rewrite <- !app_assoc in *. cbn in *.
    pose proof (alegal_app _ _ _ Hl) as [[Hb1 Hb2] [_ Hl2]].
    destruct Hb1 as (c & g & i & o' & ->); [by destruct e|]. cbn in Hb2. destruct Hb2 as (Hla & _ & x & l' & [= <- <-] & Hx).
    assert (g = f) as -> by (by destruct e; cbn in Ho, Hx; try done; repeat destruct (decide _); subst).
    destruct (waiting w f j (l2 ++ tr)) as [Hla' _]; [done|by rewrite (Hq (l1' ++ [AEBack c f i o']) e l2), Hw; [|by rewrite <- app_assoc]|].
    assert (c = w) as ->.
    { destruct e; cbn in Ho; try done; cbn in Hla; congruence. }
    assert (Hrun : aphase_of w (AEBack w f i o' :: e :: l2 ++ tr) = QRun) by (cbn; by rewrite decide_True).
    destruct (destruct_last_or l1') as [->|(l1'' & b & ->)].
    - cbn [app] in Hw'. congruence.
    - assert (aphase_of w (AEBack w f i o' :: e :: l2 ++ tr) = aphase_of w tr); [|congruence].
      apply (Hq l1'' b (AEBack w f i o' :: e :: l2)). by rewrite <- app_assoc. }
  clear -Hno. induction evs as [|e evs IH]; [done|]. cbn [app]. rewrite yielded_keeps; [|by apply (Hno [] e evs)].
  apply IH. intros l1 x l2 ->. by apply (Hno (e :: l1) x l2).
Qed.

(** ** The loop *)
Section foreach.
Context (w f g : nat) (ls : list nat) (body : V -> list bop) (k : option E -> prog).
Notation loop m i e := (aloop m i e ls body k).
Definition cont_begin : nat + E -> prog := λ r, match r with inl i => AEnd (λ e, loop None i e) | inr x => k (Some x) end.
Definition cont_inc (i e : nat) : option E -> prog := λ r, match r with None => loop None i e | Some x => k (Some x) end.
Definition cont_deref (i e : nat) : V -> prog := λ v, AObs (AGot v) (loop (Some (body v)) i e).

Lemma loop_head i e : loop None i e = AEq i e (λ b, if b then k None else ADeref i (cont_deref i e)).
Proof. transitivity (afrob (loop None i e)); [apply afrob_eq|done]. Qed.
Lemma loop_inc i e : loop (Some []) i e = AInc i ls (cont_inc i e).
Proof. transitivity (afrob (loop (Some []) i e)); [apply afrob_eq|done]. Qed.
Lemma loop_obs i e n l : loop (Some (BObs n :: l)) i e = AObs (AUser n) (loop (Some l) i e).
Proof. transitivity (afrob (loop (Some (BObs n :: l)) i e)); [apply afrob_eq|done]. Qed.
Lemma loop_leaf i e sf l : loop (Some (BLeaf sf :: l)) i e = ALeaf sf ls (λ _, loop (Some l) i e).
Proof. transitivity (afrob (loop (Some (BLeaf sf :: l)) i e)); [apply afrob_eq|done]. Qed.

(** Nobody else advances f; f and w are not destroyed. *)
Definition calm (s : state) : Prop := (∀ w' j, w' ≠ w -> AEAdv w' f j ∉ atrace s) ∧ AEDestroy f ∉ atrace s ∧ AEDestroy w ∉ atrace s.

Context (G0 : list V).
Definition sync (s : state) : Prop := agot (Co w) (atrace s) = G0 ++ ayielded f (atrace s).
Definition fresh_val (v : V) (s : state) : Prop := ∃ Y, ayielded f (atrace s) = Y ++ [v] ∧ agot (Co w) (atrace s) = G0 ++ Y.
Definition it_ok (i : nat) (s : state) : Prop :=
  (aiters s !! i = Some (Some f) ∧ ∃ v, aphase_of f (atrace s) = QYield v ∧ fresh_val v s) ∨
  (aiters s !! i = Some None ∧ sync s ∧ AEFinish f None ∈ atrace s).

Inductive loop_at (s : state) : Prop :=
  | at_start st : astack s = ARun (Co w) (aforeach g ls body k) :: st -> agens s !! g = Some (Some f) ->
      aphase_of f (atrace s) = QInit -> sync s -> loop_at s
  | at_begin fw : aheap s !! w = Some fw -> astat fw = SBegin f ls cont_begin -> sync s -> loop_at s
  | at_end i st : astack s = ARun (Co w) (AEnd (λ e, loop None i e)) :: st -> it_ok i s -> loop_at s
  | at_head i e st : astack s = ARun (Co w) (loop None i e) :: st -> aiters s !! e = Some None -> it_ok i s -> loop_at s
  | at_deref i e st v : astack s = ARun (Co w) (ADeref i (cont_deref i e)) :: st -> aiters s !! e = Some None ->
      aiters s !! i = Some (Some f) -> aphase_of f (atrace s) = QYield v -> fresh_val v s -> loop_at s
  | at_obs i e st v : astack s = ARun (Co w) (cont_deref i e v) :: st -> aiters s !! e = Some None ->
      aiters s !! i = Some (Some f) -> aphase_of f (atrace s) = QYield v -> fresh_val v s -> loop_at s
  | at_body i e st v l : astack s = ARun (Co w) (loop (Some l) i e) :: st -> aiters s !! e = Some None ->
      aiters s !! i = Some (Some f) -> aphase_of f (atrace s) = QYield v -> sync s -> loop_at s
  | at_leaf i e v l fw pid sf : aheap s !! w = Some fw -> astat fw = SLeaf pid sf ls (λ _, loop (Some l) i e) -> aiters s !! e = Some None ->
      aiters s !! i = Some (Some f) -> aphase_of f (atrace s) = QYield v -> sync s -> loop_at s
  | at_inc i e fw : aheap s !! w = Some fw -> astat fw = SInc i f ls (cont_inc i e) -> aiters s !! e = Some None ->
      aiters s !! i = Some (Some f) -> sync s -> loop_at s.

(** The loop is left. *)
Definition loop_done (s : state) : Prop :=
  ∃ r st, astack s = ARun (Co w) (k r) :: st ∧ sync s ∧ AEFinish f r ∈ atrace s.

Lemma none_stays e (s s' : state) : AInv s -> anext s s' -> aiters s !! e = Some None -> aiters s' !! e = Some None.
Proof. intros HI Hn He. destruct (iter_step e s s' HI Hn) as [H|[H _]]; [rewrite He; eauto|congruence|done]. Qed.

Lemma next_run (s s' : state) p st : astack s = ARun (Co w) p :: st -> anext s s' -> astep_user (Co w) p (aset_stack st s) = ANext s'.
Proof. intros Hst [H|[e H]]; [unfold astep in H|unfold aenv_step in H]; by rewrite Hst in H. Qed.

(** w's co_await on f completes. *)
Lemma after_back (s s' : state) fw : AInv s' -> back_to w f fw s s' -> sync s ->
  (astat fw = SBegin f ls cont_begin ∨ ∃ i e, astat fw = SInc i f ls (cont_inc i e) ∧ aiters s !! e = Some None ∧ aiters s !! i = Some (Some f)) ->
  loop_at s' ∨ loop_done s'.
Proof.
  intros HI' (i & x & o & st & Ht & Ho & Hm) Hsy Hst.
  (* the producer's stop *)
  assert (Hgot : agot (Co w) (atrace s') = agot (Co w) (atrace s)) by (rewrite Ht; by destruct x).
  assert (Hout : match o with
    | OValue => ∃ v, aphase_of f (atrace s') = QYield v ∧ fresh_val v s'
    | OEnd => sync s' ∧ AEFinish f None ∈ atrace s'
    | OExc y => sync s' ∧ AEFinish f (Some y) ∈ atrace s' end).
  { assert (Hwf : w ≠ f).
    { intros ->. pose proof (h_legal _ _ _ _ (proj1 HI')) as Hl. rewrite Ht in Hl. destruct Hl as [(_ & _ & (j & Hj & _) & _) _].
      destruct x as [| | | |h v|h [y|]| | | | | |]; cbn in Ho; try done; destruct (decide (f = h)) as [<-|]; try done; cbn in Hj; by rewrite decide_True in Hj. }
    destruct x as [| | | |h v|h [y|]| | | | | |]; cbn in Ho; try done; destruct (decide (f = h)) as [<-|]; try done; injection Ho as <-.
    - exists v. rewrite Ht. cbn. rewrite decide_False, decide_True by done. split; [done|]. exists (ayielded f (atrace s)).
      rewrite Hgot. split; [|exact Hsy]. rewrite Ht. cbn. by rewrite decide_True.
    - unfold sync in *. rewrite Hgot, Hsy, Ht. split; [done|]. right. left.
    - unfold sync in *. rewrite Hgot, Hsy, Ht. split; [done|]. right. left. }
  destruct Hst as [Hst|(i' & e & Hst & He & Hi)]; rewrite Hst in Hm.
  - destruct Hm as (_ & -> & Hs' & Hit). destruct o as [| |y].
    + left. eapply at_end; [exact Hs'|]. left. rewrite Hit, lookup_insert. eauto.
    + left. eapply at_end; [exact Hs'|]. right. rewrite Hit, lookup_insert. eauto.
    + right. exists (Some y), st. done.
  - destruct Hm as (_ & -> & Hs' & Hit). 
    assert (Hie : i ≠ e) by (intros ->; congruence).
    destruct o as [| |y].
    + left. eapply at_head; [exact Hs'|by rewrite Hit|]. left. rewrite Hit. eauto.
    + left. eapply at_head; [exact Hs'|by rewrite Hit, lookup_insert_ne|]. right. rewrite Hit, lookup_insert. eauto.
    + right. exists (Some y), st. done.
Qed.

Lemma loop_step (s s' : state) : areach s -> anext s s' -> calm s' -> loop_at s -> loop_at s' ∨ loop_done s'.
Proof.
  intros HR Hn (Hca & Hcf & Hcw) Hat.
  pose proof (inv_reach _ HR) as HI. pose proof (inv_next _ _ HI Hn) as HI'. pose proof HI as (HH & HO & HP & HIt). pose proof HI' as (HH' & _).
  pose proof (h_legal _ _ _ _ HH') as Hl'.
  destruct Hat as [st Hst Hg Hpi Hsy|fw Hw Hs Hsy|i st Hst Hi|i e st Hst He Hi|i e st v Hst He Hi Hp Hv|i e st v Hst He Hi Hp Hv|i e st v l Hst He Hi Hp Hsy
    |i e v l fw pid sf Hw Hs He Hi Hp Hsy|i e fw Hw Hs He Hi Hsy].
  - pose proof (next_run _ _ _ _ Hst Hn) as Hx. cbn in Hx. rewrite Hg in Hx. destruct (aheap s !! w) as [fr|] eqn:Hw; [|done].
    unfold ago in Hx. cbn in Hx. destruct (<[w:=fr_stat (SBegin f ls _) fr]> (aheap s) !! f) as [ff|] eqn:Hf; [|done].
    assert (Hne : w ≠ f). { intros ->. rewrite lookup_insert in Hf. injection Hf as <-. done. }
    left. destruct (astat ff); try done; injection Hx as <-.
    + eapply at_begin; [cbn; by rewrite lookup_insert_ne, lookup_insert|done|]. exact Hsy.
    + eapply at_begin; [cbn; by rewrite lookup_insert_ne, lookup_insert|done|]. exact Hsy.
  - destruct (wait_step w fw s s' HI Hn Hw) as [[Hw' (evs & He & Hq)]|[Hd|[[f' Hb]|(pid & safe & ls' & c & v & Hx & _)]]]; [by rewrite Hs| | | |congruence].
    + left. eapply at_begin; [exact Hw'|done|]. unfold sync in *.
      pose proof (h_some _ _ _ _ _ _ HH Hw) as [Pw _]. rewrite Hs in Pw. pose proof (h_some _ _ _ _ _ _ HH' Hw') as [Pw' _]. rewrite Hs in Pw'.
      rewrite He in *. rewrite (quiet_got w); [|done|done|by rewrite Pw]. rewrite (quiet_wait w f None); [done|done|done|done|done|apply HH'].
    + done.
    + assert (f' = f) as ->. { destruct Hb as (? & ? & ? & ? & _ & _ & Hm). rewrite Hs in Hm. by destruct Hm. }
      eapply after_back; [done|done|done|]. by left.
  - pose proof (next_run _ _ _ _ Hst Hn) as Hx. cbn in Hx. injection Hx as <-. left. eapply at_head; [done|cbn; by rewrite lookup_insert|].
    assert (Hlt : is_Some (aiters s !! i) -> i ≠ ani s). { intros H ->. apply (i_ni _ _ _ _ HIt) in H. lia. }
    destruct Hi as [[Hi Hv]|(Hi & Hsy & Hf)]; [left|right]; cbn; (rewrite lookup_insert_ne by (intros <-; apply Hlt; [rewrite Hi; eauto|done])).
    + done.
    + split; [done|]. split; [done|]. by right.
  - rewrite loop_head in Hst. pose proof (next_run _ _ _ _ Hst Hn) as Hx. cbn in Hx.
    destruct Hi as [[Hi (v & Hp & Hv)]|(Hi & Hsy & Hf)]; rewrite Hi, He in Hx; injection Hx as <-.
    + left. eapply at_deref; [done|done|done|done|done].
    + right. exists None, st. split; [done|]. split; [done|]. by right.
  - pose proof (next_run _ _ _ _ Hst Hn) as Hx. cbn in Hx. rewrite Hi in Hx. destruct (aheap s !! f) as [ff|] eqn:Hf; [|done].
    pose proof (h_some _ _ _ _ _ _ HH Hf) as [Pf _]. rewrite Hp in Pf.
    destruct (anonnull ff); [|done]. destruct (astat ff) as [| |v' ls' p'| | | |]; try done. injection Pf as <-. injection Hx as <-.
    left. eapply (at_obs _ i e st v); done.
  - pose proof (next_run _ _ _ _ Hst Hn) as Hx. cbn in Hx. injection Hx as <-. left. eapply (at_body _ i e st v); [done|done|done|done|].
    destruct Hv as (Y & HY & HG). unfold sync. cbn. rewrite decide_True, HY, HG by done. by rewrite app_assoc.
  - destruct l as [|[n|sf] l].
    + rewrite loop_inc in Hst. pose proof (next_run _ _ _ _ Hst Hn) as Hx. cbn in Hx. rewrite Hi in Hx. destruct (aheap s !! w) as [fr|] eqn:Hw; [|done].
      unfold ago in Hx. cbn in Hx. destruct (<[w:=fr_stat (SInc i f ls _) fr]> (aheap s) !! f) as [ff|] eqn:Hf; [|done].
      assert (Hne : w ≠ f). { intros ->. rewrite lookup_insert in Hf. injection Hf as <-. done. }
      left. destruct (astat ff); try done; injection Hx as <-.
      * eapply (at_inc _ i e); [cbn; by rewrite lookup_insert_ne, lookup_insert|done|done|done|exact Hsy].
      * eapply (at_inc _ i e); [cbn; by rewrite lookup_insert_ne, lookup_insert|done|done|done|exact Hsy].
    + rewrite loop_obs in Hst. pose proof (next_run _ _ _ _ Hst Hn) as Hx. cbn in Hx. injection Hx as <-. left. eapply (at_body _ i e st v); done.
    + rewrite loop_leaf in Hst. pose proof (next_run _ _ _ _ Hst Hn) as Hx. cbn in Hx. destruct (aheap s !! w) as [fr|] eqn:Hw; [|done]. injection Hx as <-.
      left. eapply (at_leaf _ i e v l); [cbn; by rewrite lookup_insert|done|done|done| |done].
      cbn. rewrite decide_False; [done|]. intros ->. assert (Hr : astat fr = SRun).
      { apply (h_some _ _ _ _ _ _ HH Hw). rewrite Hst. left. }
      pose proof (h_some _ _ _ _ _ _ HH Hw) as [Pw _]. rewrite Hr in Pw. rewrite Hp in Pw. done.
  - pose proof (h_some _ _ _ _ _ _ HH Hw) as [Pw _]. rewrite Hs in Pw. cbn in Pw.
    pose proof (none_stays e s s' HI Hn He) as He'.
    assert (Hi' : aiters s' !! i = Some (Some f)).
    { destruct (iter_step i s s' HI Hn) as [Hk|(Hk & c & f' & o & x & Hadv & Ht)]; [rewrite Hi; eauto|congruence|exfalso].
      assert (f' = f) as ->. { destruct (i_bind _ _ _ _ HIt _ _ _ Hadv); congruence. }
      assert (c = w) as ->. { destruct (decide (c = w)) as [|Hc]; [done|]. destruct (Hca c (Some i) Hc). rewrite Ht. by do 2 right. }
      rewrite Ht in Hl'. destruct Hl' as [(_ & _ & (j & Hj & _) & y & l' & [= <- <-] & Ho) _].
      destruct x as [| | | |h v'|h y'| | | | | |]; cbn in Ho; try done; destruct (decide (f = h)) as [<-|]; try done; cbn in Hj; destruct (decide (w = f)); congruence. }
    destruct (wait_step w fw s s' HI Hn Hw) as [[Hw' (evs & Hev & Hq)]|[Hd|[[f' Hb]|(pid' & safe & ls' & c & v' & Hx & Ht & Hs' & Hit)]]]; [by rewrite Hs| | | |].
    + left. rewrite Hev in *. destruct (quiet_yield w f v evs (atrace s)) as [Hp' Hy']; [done|done|by rewrite Pw|done|done|done|].
      eapply (at_leaf _ i e v l); [exact Hw'|exact Hs|done|done|by rewrite Hev|].
      unfold sync in *. rewrite Hev, (quiet_got w), Hy'; [done|done|done|by rewrite Pw].
    + done.
    + destruct Hb as (? & ? & ? & ? & _ & _ & Hm). by rewrite Hs in Hm.
    + left. rewrite Hs in Hx. injection Hx as <- <- <- <-. eapply (at_body _ i e [] v l); [exact Hs'|done|done| |].
      * rewrite Ht. cbn. rewrite decide_False; [done|]. intros <-. congruence.
      * unfold sync in *. rewrite Ht. exact Hsy.
  - pose proof (none_stays e s s' HI Hn He) as He'.
    destruct (wait_step w fw s s' HI Hn Hw) as [[Hw' (evs & Hev & Hq)]|[Hd|[[f' Hb]|(pid & safe & ls' & c & v & Hx & _)]]]; [by rewrite Hs| | | |congruence].
    + pose proof (h_some _ _ _ _ _ _ HH Hw) as [Pw _]. rewrite Hs in Pw. pose proof (h_some _ _ _ _ _ _ HH' Hw') as [Pw' _]. rewrite Hs in Pw'.
      left. eapply (at_inc _ i e); [exact Hw'|done|done| |].
      * destruct (iter_step i s s' HI Hn) as [Hk|(Hk & c & f' & o & x & Hadv & Ht)]; [rewrite Hi; eauto|congruence|exfalso].
        assert (f' = f) as ->. { destruct (i_bind _ _ _ _ HIt _ _ _ Hadv); congruence. }
        assert (c = w) as ->. { destruct (decide (c = w)) as [|Hc]; [done|]. destruct (Hca c (Some i) Hc). rewrite Ht. by do 2 right. }
        rewrite Ht in Pw'. cbn in Pw'. by rewrite decide_True in Pw'.
      * unfold sync in *. rewrite Hev in *. rewrite (quiet_got w); [|done|done|by rewrite Pw]. rewrite (quiet_wait w f (Some i)); [done|done|done|done|done|apply HH'].
    + done.
    + assert (f' = f) as ->. { destruct Hb as (? & ? & ? & ? & _ & _ & Hm). rewrite Hs in Hm. by destruct Hm. }
      eapply after_back; [done|done|done|]. right. eauto.
Qed.

Lemma calm_suffix (s s' : state) : anext s s' -> calm s' -> calm s.
Proof.
  intros Hn (H1 & H2 & H3). destruct (next_suffix s s' Hn) as [evs He]. rewrite He in *. split; [|split].
  - intros w' j Hw Hin. apply (H1 w' j Hw). apply elem_of_app. by right.
  - intros Hin. apply H2. apply elem_of_app. by right.
  - intros Hin. apply H3. apply elem_of_app. by right.
Qed.

(** The loop, from its start: in progress, or left. *)
Lemma foreach_all (s0 s : state) st : areach s0 -> astack s0 = ARun (Co w) (aforeach g ls body k) :: st -> agens s0 !! g = Some (Some f) ->
  aphase_of f (atrace s0) = QInit -> sync s0 ->
  aexec s0 s -> calm s -> loop_at s ∨ ∃ s1, aexec s0 s1 ∧ aexec s1 s ∧ loop_done s1.
Proof.
  intros HR Hst Hg Hpi Hsy Hex.
  assert (H : ∀ a b, aexec a b -> a = s0 -> calm b -> loop_at b ∨ ∃ s1, aexec s0 s1 ∧ aexec s1 b ∧ loop_done s1); [|by intros; eapply H].
  clear Hex s. intros a b Hex. induction Hex as [a|a s1 s2 Hex IH Hs|a s1 s2 ev Hex IH Hs]; intros -> Hc.
  - left. by eapply at_start.
  - assert (Hn : anext s1 s2) by (by left). destruct IH as [IH|(sd & H1 & H2 & H3)]; [done|by eapply calm_suffix| |].
    + destruct (loop_step s1 s2) as [?|?]; [by eapply reach_exec|done|done|done|by left|]. right. exists s2. split; [by eapply exec_next|]. split; [constructor|done].
    + right. exists sd. split; [done|]. split; [by eapply exec_next|done].
  - assert (Hn : anext s1 s2) by (right; by exists ev). destruct IH as [IH|(sd & H1 & H2 & H3)]; [done|by eapply calm_suffix| |].
    + destruct (loop_step s1 s2) as [?|?]; [by eapply reach_exec|done|done|done|by left|]. right. exists s2. split; [by eapply exec_next|]. split; [constructor|done].
    + right. exists sd. split; [done|]. split; [by eapply exec_next|done].
Qed.

(** While the loop is in progress, at most the last value was not yet recorded. *)
Lemma loop_at_got (s : state) : loop_at s -> sync s ∨ ∃ v, fresh_val v s.
Proof. destruct 1 as [|? ? ? |? ? ? Hi|? ? ? ? ? Hi| | | | |]; eauto; destruct Hi as [(_ & v & _ & ?)|(_ & ? & _)]; eauto. Qed.
End foreach.
End loop.
