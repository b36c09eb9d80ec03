(** * The range-based for loop over a Generator. *)
From stdpp Require Import gmap list.
From Verif Require Import GenModel GenSpec GenInv GenFacts.

Section loop.
Context {V E : Type}.
Notation state := (gstate V E). Notation item := (gitem V E). Notation frame := (gframe V E).
Notation event := (gevent V E). Notation prog := (gprog V E unit). Notation pos := (gpos V E).

Lemma gsteps_trans (s1 s2 s3 : state) : gsteps s1 s2 -> gsteps s2 s3 -> gsteps s1 s3.
Proof. induction 1; [done|]. intros. econstructor; eauto. Qed.
Lemma gsteps_one (s1 s2 : state) : gstep s1 = GNext s2 -> gsteps s1 s2.
Proof. intros. econstructor; [done|constructor]. Qed.
Lemma gsteps_reach (s1 s2 : state) : gsteps s1 s2 -> greach s1 -> greach s2.
Proof. induction 1; [done|]. intros HR. apply IHgsteps. by eapply gexec_step. Qed.

Definition gfrob (p : prog) : prog :=
  match p with
  | GRet a => GRet a | GThrow e => GThrow e | GObs o p => GObs o p | GYield v ls c => GYield v ls c
  | GNew b c => GNew b c | GNull c => GNull c | GMove g c => GMove g c | GAssign g h p => GAssign g h p
  | GDrop g p => GDrop g p | GBegin g c => GBegin g c | GEnd c => GEnd c | GCopy i c => GCopy i c
  | GInc i c => GInc i c | GDeref i c => GDeref i c | GWrite i v p => GWrite i v p | GEq i j c => GEq i j c
  end.
Lemma gfrob_eq p : p = gfrob p. Proof. by destruct p. Qed.
Lemma gloop_eq i e k : gloop i e k =
  GEq i e (λ b, if b then k None else
    GDeref i (λ v, GObs (GGot v) (GInc i (λ r, match r with None => gloop i e k | Some x => k (Some x) end)))) :> prog.
Proof. transitivity (gfrob (gloop i e k)); [apply gfrob_eq|done]. Qed.

(** What running body [f] alone can change. *)
Definition only (f : nat) (s s' : state) : Prop :=
  gens s' = gens s ∧ iters s' = iters s ∧ gni s' = gni s ∧ (∀ f', f' ≠ f -> gheap s' !! f' = gheap s !! f') ∧
  ∀ w, got w (gtrace s') = got w (gtrace s).
Lemma only_trans f s1 s2 s3 : only f s1 s2 -> only f s2 s3 -> only f s1 s3.
Proof.
  intros (a & b & c & d & e) (a' & b' & c' & d' & e'). split; [congruence|]. split; [congruence|]. split; [congruence|].
  split; [intros; rewrite d', d by done; done|]. intros. rewrite e'. apply e.
Qed.

(** The body runs to its next co_yield. *)
Lemma run_yield f p v vs (s : state) st fr : yields_prefix p (v :: vs) -> gstack s = GRun (Gen f) p :: st ->
  gheap s !! f = Some fr -> gexc fr = None ->
  ∃ s' ls c, gsteps s s' ∧ gstack s' = st ∧ gheap s' !! f = Some (GFrame (GSusp v ls c) true None) ∧ yields_prefix (c v) vs ∧
    only f s s' ∧ yielded f (gtrace s') = yielded f (gtrace s) ++ [v] ∧ (∀ r, yields p (v :: vs) r -> yields (c v) vs r).
Proof.
  intros Hy. remember (v :: vs) as l eqn:El. revert s.
  induction Hy as [|n p l' Hy IH|v0 ls c l' Hy IH]; intros s Hst Hf Hex; [done| |].
  - destruct (IH El (gpush (GRun (Gen f) p) (gemit (GEObs (Gen f) (GUser n)) (gset_stack st s)))) as (s' & ls & c & Hs & ? & ? & ? & Ho & Hyl & Hr);
      [done|done|done|].
    exists s', ls, c. split. { econstructor; [|exact Hs]. unfold gstep. by rewrite Hst. }
    do 3 (split; [done|]). split; [|split].
    + eapply only_trans; [|exact Ho]. by split; [|split; [|split; [|split]]].
    + done.
    + intros r Hy'. inversion Hy'; subst. auto.
  - injection El as -> ->.
    exists (gemit (GEYield f v) (gset_frame f (GFrame (GSusp v ls c) true (gexc fr)) (gset_stack st s))), ls, c.
    split. { apply gsteps_one. unfold gstep. rewrite Hst. cbn. by rewrite Hf. }
    split; [done|]. split; [cbn; by rewrite lookup_insert, Hex|]. split; [done|]. split; [|split].
    + split; [done|]. split; [done|]. split; [done|]. split; [|done]. intros f' Hne. cbn. by rewrite lookup_insert_ne.
    + cbn. by rewrite decide_True.
    + intros r Hy'. by inversion Hy'.
Qed.

(** The body runs to its end. *)
Lemma run_end f p r (s : state) st fr : yields p [] r -> gstack s = GRun (Gen f) p :: st ->
  gheap s !! f = Some fr -> gexc fr = None ->
  ∃ s', gsteps s s' ∧ gstack s' = st ∧ gheap s' !! f = Some (GFrame GFinal false r) ∧ only f s s' ∧
    yielded f (gtrace s') = yielded f (gtrace s) ∧ GEFinish f r ∈ gtrace s'.
Proof.
  intros Hy. remember [] as l eqn:El. revert s.
  induction Hy as [u|e|n p l' r Hy IH|]; intros s Hst Hf Hex; [| | |done].
  - exists (gemit (GEFinish f None) (gset_frame f (GFrame GFinal false (gexc fr)) (gset_stack st s))).
    split. { apply gsteps_one. unfold gstep. rewrite Hst. cbn. by rewrite Hf. }
    split; [done|]. split; [cbn; by rewrite lookup_insert, Hex|]. split; [|split].
    + split; [done|]. split; [done|]. split; [done|]. split; [|done]. intros f' Hne. cbn. by rewrite lookup_insert_ne.
    + done.
    + left.
  - exists (gemit (GEFinish f (Some e)) (gset_frame f (GFrame GFinal false (Some e)) (gset_stack st s))).
    split. { apply gsteps_one. unfold gstep. rewrite Hst. cbn. by rewrite Hf. }
    split; [done|]. split; [cbn; by rewrite lookup_insert|]. split; [|split].
    + split; [done|]. split; [done|]. split; [done|]. split; [|done]. intros f' Hne. cbn. by rewrite lookup_insert_ne.
    + done.
    + left.
  - destruct (IH El (gpush (GRun (Gen f) p) (gemit (GEObs (Gen f) (GUser n)) (gset_stack st s)))) as (s' & Hs & ? & ? & Ho & ? & ?);
      [done|done|done|].
    exists s'. split. { econstructor; [|exact Hs]. unfold gstep. by rewrite Hst. }
    do 2 (split; [done|]). split; [|done]. eapply only_trans; [|exact Ho]. by split; [|split; [|split; [|split]]].
Qed.

Lemma yields_is_prefix (p : prog) vs r : yields p vs r -> yields_prefix p vs.
Proof. induction 1; by constructor. Qed.

(** The iterator [i] is at a suspended body; [*i] = v: reading it and ++i. *)
Lemma loop_deref w i e k f v ls c (s : state) st :
  gstack s = GRun w (gloop i e k) :: st -> iters s !! i = Some (Some f) -> iters s !! e = Some None ->
  gheap s !! f = Some (GFrame (GSusp v ls c) true None) ->
  ∃ s', gsteps s s' ∧ gstack s' = GRun w (GInc i (λ r, match r with None => gloop i e k | Some x => k (Some x) end)) :: st ∧
    gheap s' = gheap s ∧ gens s' = gens s ∧ iters s' = iters s ∧ gni s' = gni s ∧
    got w (gtrace s') = got w (gtrace s) ++ [v] ∧ ∀ f, yielded f (gtrace s') = yielded f (gtrace s).
Proof.
  intros Hst Hi He Hf.
  eexists. split.
  { rewrite gloop_eq in Hst.
    eapply gsteps_cons. { unfold gstep. rewrite Hst. cbn. rewrite Hi, He. rewrite bool_decide_eq_false_2 by done. reflexivity. }
    eapply gsteps_cons. { unfold gstep. cbn. rewrite Hi. unfold gvalue. cbn. rewrite Hf. reflexivity. }
    eapply gsteps_cons. { unfold gstep. cbn. reflexivity. }
    constructor. }
  cbn. repeat (split; [done|]). split; [|done]. by rewrite decide_True.
Qed.

(** ++i: resumption of the body. *)
Lemma loop_inc w i cc f v ls c (s : state) st :
  gstack s = GRun w (GInc i cc) :: st -> iters s !! i = Some (Some f) ->
  gheap s !! f = Some (GFrame (GSusp v ls c) true None) ->
  ∃ s', gsteps s s' ∧ gstack s' = GRun (Gen f) (c v) :: GAfterInc w i cc :: st ∧
    gheap s' !! f = Some (GFrame GRunning true None) ∧ only f s s' ∧ yielded f (gtrace s') = yielded f (gtrace s).
Proof.
  intros Hst Hi Hf. eexists. split.
  { apply gsteps_one. unfold gstep. rewrite Hst. cbn. rewrite Hi. unfold gresume. cbn. rewrite Hf. cbn. reflexivity. }
  cbn. split; [done|]. rewrite lookup_insert. split; [done|]. split; [|done].
  split; [done|]. split; [done|]. split; [done|]. split; [|done]. intros f' Hne. cbn. by rewrite lookup_insert_ne.
Qed.

Lemma loop_all f vs : ∀ w i e k v ls c r (s : state) st, yields (c v) vs r ->
  gstack s = GRun w (gloop i e k) :: st -> iters s !! i = Some (Some f) -> iters s !! e = Some None ->
  gheap s !! f = Some (GFrame (GSusp v ls c) true None) -> i ≠ e ->
  ∃ s', gsteps s s' ∧ gstack s' = GRun w (k r) :: st ∧ got w (gtrace s') = got w (gtrace s) ++ v :: vs ∧
    yielded f (gtrace s') = yielded f (gtrace s) ++ vs ∧ GEFinish f r ∈ gtrace s' ∧ iters s' !! i = Some None.
Proof.
  induction vs as [|v' vs IH]; intros w i e k v ls c r s st Hy Hst Hi He Hf Hie.
  - destruct (loop_deref w i e k f v ls c s st Hst Hi He Hf) as (s1 & Hs1 & Hst1 & Hh1 & Hg1 & Hi1 & Hn1 & Hgot1 & Hy1).
    destruct (loop_inc w i _ f v ls c s1 st Hst1) as (s2 & Hs2 & Hst2 & Hf2 & (Hg2 & Hi2 & Hn2 & Hh2 & Hgot2) & Hy2); [congruence|congruence|].
    destruct (run_end f (c v) r s2 _ _ Hy Hst2 Hf2 eq_refl) as (s3 & Hs3 & Hst3 & Hf3 & (Hg3 & Hi3 & Hn3 & Hh3 & Hgot3) & Hy3 & Hfin).
    assert (Hii : iters s3 !! i = Some (Some f)) by congruence.
    assert (Hee : iters s3 !! e = Some None) by congruence.
    set (s4 := gset_stack (GRun w (match r with None => gloop i e k | Some x => k (Some x) end) :: st) (gemit (GEAct w (AInc r)) (gset_iters (<[i := None]> (iters s3)) s3))).
    assert (Hs4 : gstep s3 = GNext s4). { unfold gstep. rewrite Hst3, Hii, Hf3. done. }
    assert (H4 : gsteps s s4) by (eauto using gsteps_trans, gsteps_one).
    assert (Hgot4 : got w (gtrace s4) = got w (gtrace s) ++ [v]). { cbn. rewrite Hgot3, Hgot2. done. }
    assert (Hy4 : yielded f (gtrace s4) = yielded f (gtrace s) ++ []). { cbn. rewrite Hy3, Hy2, Hy1, app_nil_r. done. }
    destruct r as [x|].
    + exists s4. split; [done|]. split; [done|]. split; [done|]. split; [done|]. split; [by right|]. cbn. by rewrite lookup_insert.
    + exists (gpush (GRun w (k None)) (gemit (GEAct w (AEq true)) (gset_stack st s4))). split.
      { eapply gsteps_trans; [exact H4|]. apply gsteps_one. unfold gstep. cbn. rewrite gloop_eq. cbn.
        rewrite lookup_insert, lookup_insert_ne, Hee by done. rewrite bool_decide_eq_true_2 by done. done. }
      split; [done|]. split; [done|]. split; [done|]. split; [right; by right|]. cbn. by rewrite lookup_insert.
  - destruct (loop_deref w i e k f v ls c s st Hst Hi He Hf) as (s1 & Hs1 & Hst1 & Hh1 & Hg1 & Hi1 & Hn1 & Hgot1 & Hy1).
    destruct (loop_inc w i _ f v ls c s1 st Hst1) as (s2 & Hs2 & Hst2 & Hf2 & (Hg2 & Hi2 & Hn2 & Hh2 & Hgot2) & Hy2); [congruence|congruence|].
    destruct (run_yield f (c v) v' vs s2 _ _ (yields_is_prefix _ _ _ Hy) Hst2 Hf2 eq_refl)
      as (s3 & ls3 & c3 & Hs3 & Hst3 & Hf3 & _ & (Hg3 & Hi3 & Hn3 & Hh3 & Hgot3) & Hy3 & Hnx).
    assert (Hii : iters s3 !! i = Some (Some f)) by congruence.
    assert (Hee : iters s3 !! e = Some None) by congruence.
    set (s4 := gset_stack (GRun w (gloop i e k) :: st) (gemit (GEAct w (AInc None)) s3)).
    assert (Hs4 : gstep s3 = GNext s4). { unfold gstep. rewrite Hst3, Hii, Hf3. done. }
    destruct (IH w i e k v' ls3 c3 r s4 st) as (s5 & Hs5 & Hst5 & Hgot5 & Hy5 & Hfin5 & Hi5); [by apply Hnx|done..|].
    exists s5. split; [by eauto 10 using gsteps_trans, gsteps_one|]. split; [done|]. split; [|split; [|done]].
    + rewrite Hgot5. cbn. rewrite Hgot3, Hgot2, Hgot1. by rewrite <- app_assoc.
    + rewrite Hy5. cbn. rewrite Hy3, Hy2, Hy1. by rewrite <- app_assoc.
Qed.

(** A prefix is consumed without the body running ahead. *)
Lemma loop_prefix f vs : ∀ w i e k v ls c (s : state) st, yields_prefix (c v) vs ->
  gstack s = GRun w (gloop i e k) :: st -> iters s !! i = Some (Some f) -> iters s !! e = Some None ->
  gheap s !! f = Some (GFrame (GSusp v ls c) true None) -> i ≠ e ->
  ∃ s', gsteps s s' ∧ got w (gtrace s') = got w (gtrace s) ++ v :: vs ∧
    yielded f (gtrace s') = yielded f (gtrace s) ++ vs.
Proof.
  induction vs as [|v' vs IH]; intros w i e k v ls c s st Hy Hst Hi He Hf Hie.
  - destruct (loop_deref w i e k f v ls c s st Hst Hi He Hf) as (s1 & Hs1 & Hst1 & Hh1 & Hg1 & Hi1 & Hn1 & Hgot1 & Hy1).
    exists s1. split; [done|]. split; [done|]. by rewrite Hy1, app_nil_r.
  - destruct (loop_deref w i e k f v ls c s st Hst Hi He Hf) as (s1 & Hs1 & Hst1 & Hh1 & Hg1 & Hi1 & Hn1 & Hgot1 & Hy1).
    destruct (loop_inc w i _ f v ls c s1 st Hst1) as (s2 & Hs2 & Hst2 & Hf2 & (Hg2 & Hi2 & Hn2 & Hh2 & Hgot2) & Hy2); [congruence|congruence|].
    destruct (run_yield f (c v) v' vs s2 _ _ Hy Hst2 Hf2 eq_refl)
      as (s3 & ls3 & c3 & Hs3 & Hst3 & Hf3 & Hyp & (Hg3 & Hi3 & Hn3 & Hh3 & Hgot3) & Hy3 & _).
    assert (Hii : iters s3 !! i = Some (Some f)) by congruence.
    assert (Hee : iters s3 !! e = Some None) by congruence.
    set (s4 := gset_stack (GRun w (gloop i e k) :: st) (gemit (GEAct w (AInc None)) s3)).
    assert (Hs4 : gstep s3 = GNext s4). { unfold gstep. rewrite Hst3, Hii, Hf3. done. }
    destruct (IH w i e k v' ls3 c3 s4 st) as (s5 & Hs5 & Hgot5 & Hy5); [done..|].
    exists s5. split; [by eauto 10 using gsteps_trans, gsteps_one|]. split.
    + rewrite Hgot5. cbn. rewrite Hgot3, Hgot2, Hgot1. by rewrite <- app_assoc.
    + rewrite Hy5. cbn. rewrite Hy3, Hy2, Hy1. by rewrite <- app_assoc.
Qed.

(** begin(): resumption of the body for the first time. *)
Lemma begin_start w g cc f b (s : state) st : gstack s = GRun w (GBegin g cc) :: st -> gens s !! g = Some (Some f) ->
  gheap s !! f = Some (GFrame (GInit b) false None) ->
  ∃ s', gsteps s s' ∧ gstack s' = GRun (Gen f) b :: GAfterBegin w g cc :: st ∧
    gheap s' !! f = Some (GFrame GRunning false None) ∧ only f s s' ∧ yielded f (gtrace s') = yielded f (gtrace s).
Proof.
  intros Hst Hi Hf. eexists. split.
  { apply gsteps_one. unfold gstep. rewrite Hst. cbn. rewrite Hi. unfold gresume. cbn. rewrite Hf. cbn. reflexivity. }
  cbn. split; [done|]. rewrite lookup_insert. split; [done|]. split; [|done].
  split; [done|]. split; [done|]. split; [done|]. split; [|done]. intros f' Hne. cbn. by rewrite lookup_insert_ne.
Qed.

Lemma foreach_all w g f b vs r k (s : state) st : yields b vs r -> gstack s = GRun w (gforeach g k) :: st ->
  gens s !! g = Some (Some f) -> gheap s !! f = Some (GFrame (GInit b) false None) ->
  ∃ s', gsteps s s' ∧ gstack s' = GRun w (k r) :: st ∧ got w (gtrace s') = got w (gtrace s) ++ vs ∧
    yielded f (gtrace s') = yielded f (gtrace s) ++ vs ∧ GEFinish f r ∈ gtrace s'.
Proof.
  intros Hy Hst Hg Hf. unfold gforeach in Hst.
  destruct (begin_start _ _ _ f b s st Hst Hg Hf) as (s1 & Hs1 & Hst1 & Hf1 & (Hg1 & Hi1 & Hn1 & Hh1 & Hgot1) & Hy1).
  destruct vs as [|v vs].
  - destruct (run_end f b r s1 _ _ Hy Hst1 Hf1 eq_refl) as (s2 & Hs2 & Hst2 & Hf2 & (Hg2 & Hi2 & Hn2 & Hh2 & Hgot2) & Hy2 & Hfin).
    assert (Hgg : gens s2 !! g = Some (Some f)) by congruence.
    rewrite !app_nil_r. destruct r as [x|].
    + eexists. split.
      { eapply gsteps_trans; [exact Hs1|]. eapply gsteps_trans; [exact Hs2|]. apply gsteps_one.
        unfold gstep. rewrite Hst2, Hgg, Hf2. cbn. reflexivity. }
      cbn. split; [done|]. split; [congruence|]. split; [congruence|]. by right.
    + eexists. split.
      { eapply gsteps_trans; [exact Hs1|]. eapply gsteps_trans; [exact Hs2|].
        eapply gsteps_cons. { unfold gstep. rewrite Hst2, Hgg, Hf2. cbn. reflexivity. }
        eapply gsteps_cons. { unfold gstep. cbn. reflexivity. }
        apply gsteps_one. unfold gstep. cbn. rewrite gloop_eq. cbn. rewrite lookup_insert, lookup_insert_ne, lookup_insert by lia.
        rewrite bool_decide_eq_true_2 by done. reflexivity. }
      cbn. split; [done|]. split; [congruence|]. split; [congruence|]. right. right. by right.
  - destruct (run_yield f b v vs s1 _ _ (yields_is_prefix _ _ _ Hy) Hst1 Hf1 eq_refl)
      as (s2 & ls2 & c2 & Hs2 & Hst2 & Hf2 & _ & (Hg2 & Hi2 & Hn2 & Hh2 & Hgot2) & Hy2 & Hnx).
    assert (Hgg : gens s2 !! g = Some (Some f)) by congruence.
    edestruct (λ s a b0, loop_all f vs w (gni s2) (S (gni s2)) k v ls2 c2 r s st (Hnx r Hy) a b0) as (s4 & Hs4 & Hst4 & Hgot4 & Hy4 & Hfin4 & Hi4); cycle 5.
    + exists s4. split; [|split; [exact Hst4|]].
      * eapply gsteps_trans; [exact Hs1|]. eapply gsteps_trans; [exact Hs2|].
        eapply gsteps_cons. { unfold gstep. rewrite Hst2, Hgg, Hf2. cbn. reflexivity. }
        eapply gsteps_cons. { unfold gstep. cbn. reflexivity. } exact Hs4.
      * split; [rewrite Hgot4; cbn; by rewrite Hgot2, Hgot1|]. split; [|done]. rewrite Hy4. cbn. rewrite Hy2, Hy1. by rewrite <- app_assoc.
    + done.
    + cbn. rewrite lookup_insert_ne by lia. by rewrite lookup_insert.
    + cbn. by rewrite lookup_insert.
    + done.
    + lia.
Qed.

Lemma foreach_prefix w g f b vs k (s : state) st : yields_prefix b vs -> gstack s = GRun w (gforeach g k) :: st ->
  gens s !! g = Some (Some f) -> gheap s !! f = Some (GFrame (GInit b) false None) ->
  ∃ s', gsteps s s' ∧ got w (gtrace s') = got w (gtrace s) ++ vs ∧ yielded f (gtrace s') = yielded f (gtrace s) ++ vs.
Proof.
  intros Hy Hst Hg Hf. unfold gforeach in Hst.
  destruct vs as [|v vs]; [exists s; rewrite !app_nil_r; split; [constructor|done]|].
  destruct (begin_start _ _ _ f b s st Hst Hg Hf) as (s1 & Hs1 & Hst1 & Hf1 & (Hg1 & Hi1 & Hn1 & Hh1 & Hgot1) & Hy1).
  destruct (run_yield f b v vs s1 _ _ Hy Hst1 Hf1 eq_refl)
    as (s2 & ls2 & c2 & Hs2 & Hst2 & Hf2 & Hyp & (Hg2 & Hi2 & Hn2 & Hh2 & Hgot2) & Hy2 & _).
  assert (Hgg : gens s2 !! g = Some (Some f)) by congruence.
  edestruct (λ s a b0, loop_prefix f vs w (gni s2) (S (gni s2)) k v ls2 c2 s st Hyp a b0) as (s4 & Hs4 & Hgot4 & Hy4); cycle 5.
  + exists s4. split.
    * eapply gsteps_trans; [exact Hs1|]. eapply gsteps_trans; [exact Hs2|].
      eapply gsteps_cons. { unfold gstep. rewrite Hst2, Hgg, Hf2. cbn. reflexivity. }
      eapply gsteps_cons. { unfold gstep. cbn. reflexivity. } exact Hs4.
    * split; [rewrite Hgot4; cbn; by rewrite Hgot2, Hgot1|]. rewrite Hy4. cbn. rewrite Hy2, Hy1. by rewrite <- app_assoc.
  + done.
  + cbn. rewrite lookup_insert_ne by lia. by rewrite lookup_insert.
  + cbn. by rewrite lookup_insert.
  + done.
  + lia.
Qed.

(** A generator body that was never resumed is at its beginning. *)
Lemma fresh_frame f b (s : state) : greach s -> GENew f b ∈ gtrace s -> (∀ v, GEResume f v ∉ gtrace s) -> GEDestroy f ∉ gtrace s ->
  gheap s !! f = Some (GFrame (GInit b) false None) ∧ yielded f (gtrace s) = [].
Proof.
  intros HR Hn Hnr Hnd. destruct (inv_reach s HR) as [HH HO].
  destruct (gheap s !! f) as [fr|] eqn:Hf.
  2:{ exfalso. destruct (h_none _ _ _ _ HH f Hf) as [Hp|Hp]; [by apply (created_not_none _ _ _ Hn)|]. by apply Hnd, gone_destroyed. }
  pose proof (h_legal _ _ _ _ HH) as Hl.
  destruct (wi_reach s HR f b Hn) as (r & Hw & Hp). specialize (Hp fr Hf).
  assert (Hy : yielded f (gtrace s) = []).
  { clear -Hnr Hl. induction (gtrace s) as [|e tr IH]; [done|]. destruct Hl as [He Hl].
    assert (IH' : yielded f tr = []) by (apply IH; [intros v Hin; apply (Hnr v); by right|done]).
    destruct e as [| |g v| | | |]; cbn; try done. destruct (decide (f = g)) as [<-|]; [|done].
    cbn in He. destruct (qrun_resumed _ _ He) as [v0 Hin]. destruct (Hnr v0). by right. }
  pose proof (h_some _ _ _ _ HH f fr Hf) as Hph. pose proof (h_val _ _ _ _ HH f fr Hf) as Hv. unfold val_ok in Hv.
  assert (Hnot : gphase_of f (gtrace s) = QInit).
  { clear -Hn Hnr Hnd Hl. induction (gtrace s) as [|e tr IH]; [by apply elem_of_nil in Hn|]. destruct Hl as [He Hl].
    assert (G : ∀ v, GEResume f v ∉ tr) by (intros v Hin; apply (Hnr v); by right).
    apply elem_of_cons in Hn as [<-|Hn]; [cbn; by rewrite decide_True|].
    assert (IH' : gphase_of f tr = QInit) by (apply IH; [done|done| |done]; intros Hin; apply Hnd; by right).
    destruct e as [g b0|g v|g v|g r|g|w o|w a]; cbn in *; try done; destruct (decide (f = g)) as [<-|]; try done.
    - by destruct (Hnr v); left.
    - congruence.
    - congruence.
    - by destruct Hnd; left. }
  rewrite Hnot in Hph. destruct fr as [[b'| | |] nn ex]; cbn in *; try done. destruct Hv as [-> ->].
  assert (b' = b) as ->; [|done]. subst r.
  clear -Hw. inversion Hw as [Hq|l x e y Hw0 Ha]; [done|]. subst. inversion Ha.
Qed.
End loop.
