(** * More facts about the Generator machine: call structure, exceptions, ownership. *)
From stdpp Require Import gmap list.
From Verif Require Import GenModel GenSpec GenInv GenFacts GenLoop.

Section facts2.
Context {V E : Type}.
Notation state := (gstate V E). Notation item := (gitem V E). Notation frame := (gframe V E).
Notation event := (gevent V E). Notation prog := (gprog V E unit). Notation pos := (gpos V E).

(** ** Where events come from *)
Definition esrc (s s' : state) (e : event) : Prop :=
  match e with
  | GEResume f _ =>
    (∃ w g c st, gstack s = GRun w (GBegin g c) :: st ∧ gens s !! g = Some (Some f)) ∨
    (∃ w i c st, gstack s = GRun w (GInc i c) :: st ∧ iters s !! i = Some (Some f))
  | GEDestroy f => ∃ g, gens s !! g = Some (Some f) ∧ gens s' !! g = None
  | GEAct w (AInc (Some e)) =>
    ∃ i c st f, gstack s = GAfterInc w i c :: st ∧ iters s !! i = Some (Some f) ∧ GEFinish f (Some e) ∈ gtrace s ∧ iters s' !! i = Some None
  | GEAct w (ABegin (inr e)) =>
    ∃ g c st f, gstack s = GAfterBegin w g c :: st ∧ gens s !! g = Some (Some f) ∧ GEFinish f (Some e) ∈ gtrace s
  | GEAct _ (AAssign (Some f)) => (∃ g, gens s !! g = Some (Some f)) ∧ ∀ g, gens s' !! g ≠ Some (Some f)
  | _ => True
  end.

Lemma exc_fin f fr e (s : state) : Inv s -> gheap s !! f = Some fr -> gexc fr = Some e -> GEFinish f (Some e) ∈ gtrace s.
Proof.
  intros [HH _] Hf He. pose proof (h_val _ _ _ _ HH f fr Hf) as Hv. unfold val_ok in Hv. rewrite He in Hv.
  destruct (gstat fr); try naive_solver.
Qed.

Lemma src_resume f (s0 s s' : state) : gresume f s = GNext s' -> gtrace s = gtrace s0 ->
  (∀ v, esrc s0 s' (GEResume f v)) -> ∃ evs, gtrace s' = evs ++ gtrace s0 ∧ ∀ e, e ∈ evs -> esrc s0 s' e.
Proof.
  unfold gresume. intros Hr Ht He. destruct (gheap s !! f) as [fr|]; [|done].
  destruct (gstat fr); try done; injection Hr as <-; cbn in *; rewrite Ht; eexists [_]; (split; [done|]); intros e ->%elem_of_list_singleton; exact (He None).
Qed.
Lemma src_drop g l (s0 s s' : state) : gdrop g s = GNext s' -> gtrace s = l ++ gtrace s0 -> gens s = gens s0 ->
  (∀ e, e ∈ l -> esrc s0 s' e) -> ∃ evs, gtrace s' = evs ++ gtrace s0 ∧ ∀ e, e ∈ evs -> esrc s0 s' e.
Proof.
  unfold gdrop, gdestroy. intros Hr Ht Hg Hl. rewrite Hg in Hr. destruct (gens s0 !! g) as [[f|]|] eqn:Hgf; [| |done].
  - cbn in Hr. destruct (gheap s !! f) as [fr|]; [|done].
    destruct (gstat fr); try done; injection Hr as <-; cbn in *; rewrite Ht; exists (GEDestroy f :: l); (split; [done|]);
      (intros e [-> |?]%elem_of_cons; [|by auto]); exists g; cbn; by rewrite lookup_delete.
  - injection Hr as <-. cbn in *. exists l. done.
Qed.

Lemma step_events (s s' : state) : Inv s -> gstep s = GNext s' -> ∃ evs, gtrace s' = evs ++ gtrace s ∧ ∀ e, e ∈ evs -> esrc s s' e.
Proof.
  intros HI0 Hstep. unfold gstep in Hstep. destruct (gstack s) as [|[w p|w g c|w i c|[|g l]] st] eqn:Hst; [done|..].
  - destruct p as [u|e|o p|v ls c|b c|c|g c|g g2 p|g p|g c|c|i c|i c|i c|i v p|i j c]; cbn in Hstep.
    10:{ destruct (gens s !! g) as [[f|]|] eqn:Hg; try done. eapply src_resume; [exact Hstep|done|]. intros v. left. eauto 10. }
    9:{ eapply (src_drop g [_]); [exact Hstep|done|done|]. by intros e ->%elem_of_list_singleton. }
    11:{ destruct (iters s !! i) as [[f|]|] eqn:Hi; try done.
      - eapply src_resume; [exact Hstep|done|]. intros v. right. eauto 10.
      - injection Hstep as <-. exists [GEAct w (AInc None)]. split; [done|]. by intros e ->%elem_of_list_singleton. }
    8:{ destruct (gens s !! g) as [old|] eqn:Hg; [|done]. destruct (gens s !! g2) as [h|] eqn:Hg2; [|done]. injection Hstep as <-.
      exists [GEAct w (AAssign old)]. split; [done|]. intros e ->%elem_of_list_singleton. cbn. destruct old as [f|]; [|done].
      split; [eauto|]. destruct HI0 as [_ HO]. intros k [[_ ?]|[Hk [[<- ->]|[Hk2 Hkk]]%lookup_insert_Some]]%lookup_insert_Some; [done| |].
      - apply Hk. by apply (o_uniq _ _ _ _ HO _ _ f).
      - apply Hk2. by apply (o_uniq _ _ _ _ HO _ _ f). }
    all: repeat match type of Hstep with
      | context [match ?x with _ => _ end] => destruct x; try done
      end; injection Hstep as <-; cbn [gtrace gemit gset_frame gset_heap gset_stack gpush gset_iters gset_gens];
      first [exists []; split; [done|]; by intros ? ?%elem_of_nil | eexists [_; _]; split; [done|]; by intros e0 [-> | ->%elem_of_list_singleton]%elem_of_cons
            | eexists [_]; split; [done|]; by intros e0 ->%elem_of_list_singleton].
  - destruct (gens s !! g) as [[f|]|] eqn:Hg; try done. destruct (gheap s !! f) as [fr|] eqn:Hf; [|done].
    destruct (gnonnull fr); [|destruct (gexc fr) as [x|] eqn:Hx]; injection Hstep as <-; cbn; eexists [_]; (split; [done|]);
      intros e ->%elem_of_list_singleton; try done. exists g, c, st, f. split; [done|]. split; [done|]. by eapply exc_fin.
  - destruct (iters s !! i) as [[f|]|] eqn:Hg; try done. destruct (gheap s !! f) as [fr|] eqn:Hf; [|done].
    destruct (gnonnull fr); injection Hstep as <-; cbn; eexists [_]; (split; [done|]); intros e ->%elem_of_list_singleton; try done.
    cbn. destruct (gexc fr) as [x|] eqn:Hx; [|done]. exists i, c, st, f. split; [done|]. split; [done|]. split; [by eapply exc_fin|].
    by rewrite lookup_insert.
  - injection Hstep as <-. exists []. split; [done|]. by intros ? ?%elem_of_nil.
  - eapply (src_drop g []); [exact Hstep|done|done|]. by intros e ?%elem_of_nil.
Qed.

Lemma exc_origin (s : state) w a x l1 l2 : greach s -> gtrace s = l1 ++ GEAct w a :: l2 ->
  a = AInc (Some x) ∨ a = ABegin (inr x) -> ∃ f, GEFinish f (Some x) ∈ l2.
Proof.
  intros HR. unfold greach in HR. remember ginit as s0 eqn:E0. revert l1.
  induction HR as [s|s s1 s2 H1 IH Hs|s s1 s2 p H1 IH Hc]; intros l1 Ht Ha; subst.
  - by destruct l1.
  - assert (HR1 : greach s1) by exact H1.
    destruct (step_events s1 s2 (inv_reach _ HR1) Hs) as (evs & Hev & Hsrc). rewrite Hev in Ht.
    apply app_eq_inv in Ht as [(k & -> & Hk)|(k & -> & Hk)].
    + destruct k as [|e k].
      * cbn in Hk. by eapply (IH eq_refl []).
      * injection Hk as <- ->. assert (Hin : GEAct w a ∈ l1 ++ GEAct w a :: k) by (apply elem_of_app; right; left).
        specialize (Hsrc _ Hin). destruct Ha as [-> | ->].
        -- destruct Hsrc as (i & c & st & f & _ & _ & Hf & _). exists f. apply elem_of_app. by right.
        -- destruct Hsrc as (i & c & st & f & _ & _ & Hf). exists f. apply elem_of_app. by right.
    + by eapply (IH eq_refl k).
  - unfold gcall in Hc. destruct (gstack s1); [|done]. injection Hc as <-. cbn in Ht. by eapply IH.
Qed.

(** ** Lost coroutines *)
Lemma gens_drop g (s s' : state) k f : gdrop g s = GNext s' -> gens s' !! k = Some (Some f) -> gens s !! k = Some (Some f).
Proof.
  unfold gdrop, gdestroy. destruct (gens s !! g) as [[f'|]|] eqn:Hg; [| |done].
  - cbn. destruct (gheap s !! f') as [fr|]; [|done]. destruct (gstat fr); try done; intros [= <-]; cbn; by intros [? ?]%lookup_delete_Some.
  - intros [= <-]. cbn. by intros [? ?]%lookup_delete_Some.
Qed.
Lemma gens_resume f (s s' : state) : gresume f s = GNext s' -> gens s' = gens s.
Proof. unfold gresume. destruct (gheap s !! f) as [fr|]; [|done]. destruct (gstat fr); try done; by intros [= <-]. Qed.
Lemma step_gens (s s' : state) g f : gstep s = GNext s' -> gens s' !! g = Some (Some f) ->
  (∃ g0, gens s !! g0 = Some (Some f)) ∨ f = gnf s.
Proof.
  intros Hstep Hg'. unfold gstep in Hstep. destruct (gstack s) as [|[w p|w k c|w i c|[|k l]] st] eqn:Hst; [done|..].
  - destruct p as [u|e|o p|v ls c|b c|c|k c|k k2 p|k p|k c|c|i c|i c|i c|i v p|i j c]; cbn in Hstep.
    9:{ left. exists g. exact (gens_drop _ _ _ _ _ Hstep Hg'). }
    9:{ destruct (gens s !! k) as [[f'|]|]; try done. left. exists g. rewrite <- Hg'. symmetry. by rewrite (gens_resume _ _ _ Hstep). }
    11:{ destruct (iters s !! i) as [[f'|]|]; try done.
         - left. exists g. rewrite <- Hg'. symmetry. by rewrite (gens_resume _ _ _ Hstep).
         - injection Hstep as <-. left. by exists g. }
    5:{ injection Hstep as <-. cbn in Hg'. apply lookup_insert_Some in Hg' as [[_ [= <-]]|[_ ?]]; eauto. }
    5:{ injection Hstep as <-. cbn in Hg'. apply lookup_insert_Some in Hg' as [[_ ?]|[_ ?]]; [done|eauto]. }
    5:{ destruct (gens s !! k) as [h|] eqn:Hk; [|done]. injection Hstep as <-. cbn in Hg'. left.
        apply lookup_insert_Some in Hg' as [[_ ->]|[_ [[_ ?]|[_ ?]]%lookup_insert_Some]]; [eauto|done|eauto]. }
    5:{ destruct (gens s !! k) as [h|] eqn:Hk; [|done]. destruct (gens s !! k2) as [h2|] eqn:Hk2; [|done]. injection Hstep as <-. cbn in Hg'. left.
        apply lookup_insert_Some in Hg' as [[_ ?]|[_ [[_ ->]|[_ ?]]%lookup_insert_Some]]; [done|eauto|eauto]. }
    all: left; exists g; rewrite <- Hg'; repeat match type of Hstep with
      | context [match ?x with _ => _ end] => destruct x; try done
      end; injection Hstep as <-; done.
  - left. exists g. rewrite <- Hg'. repeat match type of Hstep with
      | context [match ?x with _ => _ end] => destruct x; try done
      end; injection Hstep as <-; done.
  - left. exists g. rewrite <- Hg'. repeat match type of Hstep with
      | context [match ?x with _ => _ end] => destruct x; try done
      end; injection Hstep as <-; done.
  - injection Hstep as <-. left. by exists g.
  - left. exists g. exact (gens_drop _ _ _ _ _ Hstep Hg').
Qed.

Definition lost (s : state) (f : nat) : Prop :=
  f < gnf s ∧ (∀ g, gens s !! g ≠ Some (Some f)) ∧ GEDestroy f ∉ gtrace s.
Lemma nf_resume f (s s' : state) : gresume f s = GNext s' -> gnf s' = gnf s.
Proof. unfold gresume. destruct (gheap s !! f) as [fr|]; [|done]. destruct (gstat fr); try done; by intros [= <-]. Qed.
Lemma nf_drop g (s s' : state) : gdrop g s = GNext s' -> gnf s' = gnf s.
Proof.
  unfold gdrop, gdestroy. destruct (gens s !! g) as [[f|]|]; [| |done].
  - cbn. destruct (gheap s !! f) as [fr|]; [|done]. destruct (gstat fr); try done; by intros [= <-].
  - by intros [= <-].
Qed.
Lemma nf_mono (s s' : state) : gstep s = GNext s' -> gnf s <= gnf s'.
Proof.
  intros Hstep. unfold gstep in Hstep. destruct (gstack s) as [|[w p|w k c|w i c|[|k l]] st] eqn:Hst; [done|..].
  - destruct p as [u|e|o p|v ls c|b c|c|k c|k k2 p|k p|k c|c|i c|i c|i c|i v p|i j c]; cbn in Hstep.
    9:{ by rewrite (nf_drop _ _ _ Hstep). }
    9:{ destruct (gens s !! k) as [[f'|]|]; try done. by rewrite (nf_resume _ _ _ Hstep). }
    11:{ destruct (iters s !! i) as [[f'|]|]; try done; [by rewrite (nf_resume _ _ _ Hstep)|by injection Hstep as <-]. }
    all: repeat match type of Hstep with
      | context [match ?x with _ => _ end] => destruct x; try done
      end; injection Hstep as <-; cbn; lia.
  - repeat match type of Hstep with
      | context [match ?x with _ => _ end] => destruct x; try done
      end; injection Hstep as <-; done.
  - repeat match type of Hstep with
      | context [match ?x with _ => _ end] => destruct x; try done
      end; injection Hstep as <-; done.
  - by injection Hstep as <-.
  - by rewrite (nf_drop _ _ _ Hstep).
Qed.

Lemma lost_step (s s' : state) f : Inv s -> gstep s = GNext s' -> lost s f -> lost s' f.
Proof.
  intros HI0 Hs (Hlt & Hno & Hnd). split; [|split].
  - pose proof (nf_mono _ _ Hs). lia.
  - intros g Hg. destruct (step_gens _ _ _ _ Hs Hg) as [[g0 ?]|?]; [by destruct (Hno g0)|lia].
  - destruct (step_events _ _ HI0 Hs) as (evs & -> & Hsrc). rewrite elem_of_app. intros [Hin|?]; [|done].
    destruct (Hsrc _ Hin) as (g & Hg & _). by destruct (Hno g).
Qed.

Lemma assigned_lost (s : state) w f : greach s -> GEAct w (AAssign (Some f)) ∈ gtrace s -> lost s f.
Proof.
  intros HR. unfold greach in HR. remember ginit as s0 eqn:E0.
  induction HR as [s|s s1 s2 H1 IH Hs|s s1 s2 p H1 IH Hc]; intros Hin; subst.
  - by apply elem_of_nil in Hin.
  - assert (HR1 : greach s1) by exact H1. pose proof (inv_reach _ HR1) as HI1.
    destruct (step_events s1 s2 HI1 Hs) as (evs & Hev & Hsrc). rewrite Hev in Hin.
    apply elem_of_app in Hin as [Hin|Hin]; [|by eapply lost_step; [| |apply IH]].
    destruct (Hsrc _ Hin) as [[g Hg] Hno]. destruct HI1 as [HH HO].
    destruct (o_gh _ _ _ _ HO g f Hg) as [fr Hf].
    split; [|split].
    + assert (f < gnf s1) by (eapply h_nf; eauto). pose proof (nf_mono _ _ Hs). lia.
    + exact Hno.
    + destruct (inv_step s1 s2 (conj HH HO) Hs) as [HH2 _]. intros Hd.
      rewrite Hev in Hd. apply elem_of_app in Hd as [Hd|Hd].
      * destruct (Hsrc _ Hd) as (g' & Hg' & Hg2). assert (g' = g) as -> by (by apply (o_uniq _ _ _ _ HO _ _ f)).
        clear -Hs Hev Hin Hd. unfold gstep in Hs.
        assert (Hev' : GEAct w (AAssign (Some f)) ∈ evs ∧ GEDestroy f ∈ evs) by done. clear Hin Hd.
        (* a move-assignment step emits one event only *)
        assert (Hone : ∀ a b0, a ∈ evs -> b0 ∈ evs -> (∃ o, a = GEAct w (AAssign o)) -> a = b0); [|by assert (Hx : GEAct w (AAssign (Some f)) = GEDestroy f) by (eapply Hone; [apply Hev'|apply Hev'|eauto])].
        intros a b0 Ha Hb [o ->].
        destruct (gstack s1) as [|[w' p|w' k c|w' i c|[|k l]] st] eqn:Hst; [done|..].
        -- destruct p as [u|e|o' p|v ls c|b c|c|k c|k k2 p|k p|k c|c|i c|i c|i c|i v p|i j c]; cbn in Hs;
           unfold gdrop, gdestroy, gresume in Hs; cbn in Hs;
           repeat match type of Hs with
            | context [match ?x with _ => _ end] => destruct x; try done
            end; injection Hs as <-; cbn in Hev;
            first [apply (app_inv_tail _ []) in Hev | apply (app_inv_tail _ [_]) in Hev | apply (app_inv_tail _ [_; _]) in Hev]; subst evs;
            set_solver.
        -- repeat match type of Hs with
            | context [match ?x with _ => _ end] => destruct x; try done
            end; injection Hs as <-; cbn in Hev; apply (app_inv_tail _ [_]) in Hev; subst evs; set_solver.
        -- repeat match type of Hs with
            | context [match ?x with _ => _ end] => destruct x; try done
            end; injection Hs as <-; cbn in Hev; apply (app_inv_tail _ [_]) in Hev; subst evs; set_solver.
        -- injection Hs as <-. cbn in Hev. apply (app_inv_tail _ []) in Hev. subst evs. set_solver.
        -- unfold gdrop, gdestroy in Hs; cbn in Hs;
           repeat match type of Hs with
            | context [match ?x with _ => _ end] => destruct x; try done
            end; injection Hs as <-; cbn in Hev;
            first [apply (app_inv_tail _ []) in Hev | apply (app_inv_tail _ [_]) in Hev | apply (app_inv_tail _ [_; _]) in Hev]; subst evs;
            set_solver.
      * pose proof (gone_stays _ _ (h_legal _ _ _ _ HH) Hd) as Hg1. rewrite (h_some _ _ _ _ HH f fr Hf) in Hg1. by destruct (gstat fr).
  - unfold gcall in Hc. destruct (gstack s1); [|done]. injection Hc as <-. cbn in Hin.
    destruct (IH eq_refl Hin) as (? & ? & ?). split; [cbn; lia|done].
Qed.
End facts2.
