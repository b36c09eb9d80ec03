(** * Coroutines that only co_await temporaries behave as cooperative threads: simulation (for C115). *)
From stdpp Require Import gmap list relations.
From Verif Require Import TaskModel TaskFacts2 CoopSpec.

Section sim.
Context {V : Type} (mv : V -> V) (dflt : V).
Notation state := (state V). Notation item := (item V). Notation frame := (frame V).
Notation outcome := (outcome V). Notation status := (status V).
Notation step := (step mv dflt).

Definition stp (s s' : state) : Prop := step s = Next s'.
Notation steps := (rtc stp).

(** "co_await f()" after the call. *)
Definition cont (t : tid) (c : outcome -> fn V) : outcome -> prog V V := λ o, PDrop t (coro (c o)).
Definition caller : Type := fid * tid * (outcome -> fn V).

Definition zombie (s : state) (z : fid) : Prop := ∃ kd aw o, heap s !! z = Some (Frame kd Final aw 1 (Some o) []).
Notation zs_items := (map (λ z, FinalSusp (V:=V) z [])).

(** [below s st f cs stk F T]: coroutine [f] has status [st], it is (to be) awaited through [cs], [stk] is the part of the call
    stack below it; these coroutines and objects exist. *)
Inductive below (s : state) : status -> fid -> list caller -> list item -> list fid -> list tid -> Prop :=
  | b_done st f kd : heap s !! f = Some (Frame kd st [] 1 None []) -> below s st f [] [] [f] []
  | b_root st f kd t w : heap s !! f = Some (Frame kd st [] 2 None []) -> objs s !! t = Some (Obj KTask (Some f)) ->
      below s st f [] [Run (Plain w) (CUser (PDrop t (PRet dflt)))] [f] [t]
  | b_zomb st f cs z stk F T : zombie s z -> below s st f cs stk F T -> below s st f cs (FinalSusp z [] :: stk) (z :: F) T
  | b_call st f kd f' t k cs stk F T : heap s !! f = Some (Frame kd st [] 2 None []) -> objs s !! t = Some (Obj KTask (Some f)) ->
      below s Running f' cs stk F T -> below s st f ((f', t, k) :: cs) (Run (Co f') (CUser (PAwait t (cont t k))) :: stk) (f :: F) (t :: T)
  | b_wait st f kd f' t kd' k cs stk F T : heap s !! f = Some (Frame kd st [f'] 2 None []) -> objs s !! t = Some (Obj kd' (Some f)) ->
      below s (AwaitTask f (KUser (cont t k))) f' cs stk F T -> below s st f ((f', t, k) :: cs) stk (f :: F) (t :: T).

Lemma below_mono s s' st f cs stk F T : below s st f cs stk F T ->
  (∀ g, g ∈ F -> heap s' !! g = heap s !! g) -> (∀ t, t ∈ T -> objs s' !! t = objs s !! t) -> below s' st f cs stk F T.
Proof.
  intros H; induction H as [st f kd H|st f kd t w H Ho|st f cs z stk F T Hz H IH|st f kd f' t k cs stk F T H Ho Hb IH|st f kd f' t kd' k cs stk F T H Ho Hb IH]; intros HF HT.
  - eapply b_done. rewrite HF; [done|set_solver].
  - eapply b_root; [rewrite HF; [done|set_solver]|rewrite HT; [done|set_solver]].
  - destruct Hz as (kd & aw & o & Hz). constructor; [exists kd, aw, o; rewrite HF; [done|set_solver]|].
    apply IH; [intros; apply HF; set_solver|done].
  - eapply b_call; [rewrite HF; [done|set_solver]|rewrite HT; [done|set_solver]|]. apply IH; intros; [apply HF|apply HT]; set_solver.
  - eapply b_wait; [rewrite HF; [done|set_solver]|rewrite HT; [done|set_solver]|]. apply IH; intros; [apply HF|apply HT]; set_solver.
Qed.

Lemma below_in s st f cs stk F T : below s st f cs stk F T -> f ∈ F.
Proof. induction 1; set_solver. Qed.
Lemma below_status s st f cs stk F T : below s st f cs stk F T -> ∃ fr, heap s !! f = Some fr ∧ fstatus fr = st ∧ fparams fr = [].
Proof. induction 1; eauto. Qed.

Lemma below_heap s st f cs stk F T g : below s st f cs stk F T -> g ∈ F -> is_Some (heap s !! g).
Proof.
  induction 1 as [st f kd H|st f kd t w H Ho|st f cs z stk F T (kd & aw & o & Hz) H IH|st f kd f' t k cs stk F T H Ho Hb IH|st f kd f' t kd' k cs stk F T H Ho Hb IH];
    rewrite ?elem_of_cons, ?elem_of_nil; naive_solver.
Qed.
Lemma below_objs s st f cs stk F T t : below s st f cs stk F T -> t ∈ T -> is_Some (objs s !! t).
Proof.
  induction 1 as [st f kd H|st f kd t' w H Ho|st f cs z stk F T (kd & aw & o & Hz) H IH|st f kd f' t' k cs stk F T H Ho Hb IH|st f kd f' t' kd' k cs stk F T H Ho Hb IH];
    rewrite ?elem_of_cons, ?elem_of_nil; naive_solver.
Qed.

(** Another status. *)
Lemma below_set s st st' f cs stk F T : below s st f cs stk F T -> NoDup F -> below (upd f (fr_status st') s) st' f cs stk F T.
Proof.
  intros H; induction H as [st f kd H|st f kd t w H Ho|st f cs z stk F T Hz H IH|st f kd f' t k cs stk F T H Ho Hb IH|st f kd f' t kd' k cs stk F T H Ho Hb IH]; intros Hnd.
  - eapply b_done. cbn. by rewrite lookup_alter, H.
  - eapply b_root; [|done]. cbn. by rewrite lookup_alter, H.
  - apply NoDup_cons in Hnd as [Hni Hnd]. destruct Hz as (kd & aw & o & Hz). constructor; [|by apply IH].
    exists kd, aw, o. cbn. rewrite lookup_alter_ne; [done|]. intros ->. apply Hni. by eapply below_in.
  - apply NoDup_cons in Hnd as [Hni Hnd]. eapply b_call; [cbn; by rewrite lookup_alter, H|done|].
    eapply below_mono; [done| |done]. intros g Hg. cbn. apply lookup_alter_ne. by intros ->.
  - apply NoDup_cons in Hnd as [Hni Hnd]. eapply b_wait; [cbn; by rewrite lookup_alter, H|done|].
    eapply below_mono; [done| |done]. intros g Hg. cbn. apply lookup_alter_ne. by intros ->.
Qed.

(** What a step or several of the running thread change. *)
Definition same_log (s s' : state) : Prop :=
  seen (trace s') = seen (trace s) ∧ waits (trace s') = waits (trace s) ∧ (∀ f, ticket f (trace s') = ticket f (trace s)).
Record local (s s' : state) (F F' : list fid) (T T' : list tid) : Prop := Local {
  l_heap : ∀ g, g ∉ F -> heap s' !! g = heap s !! g;
  l_objs : ∀ t, t ∉ T -> objs s' !! t = objs s !! t;
  l_gone : ∀ g, g ∈ F -> g ∉ F' -> heap s' !! g = None;
  l_goneo : ∀ t, t ∈ T -> t ∉ T' -> objs s' !! t = None;
  l_F : F' ⊆ F; l_T : T' ⊆ T;
  l_nf : nf s' = nf s; l_nt : nt s' = nt s;
  l_log : same_log s s' }.

Lemma same_log_refl s : same_log s s. Proof. done. Qed.
Lemma same_log_trans s1 s2 s3 : same_log s1 s2 -> same_log s2 s3 -> same_log s1 s3.
Proof. intros (? & ? & H) (? & ? & H'). split_and!; [congruence..|]. intros f. by rewrite H', H. Qed.
Lemma local_trans s1 s2 s3 F1 F2 F3 T1 T2 T3 : local s1 s2 F1 F2 T1 T2 -> local s2 s3 F2 F3 T2 T3 -> local s1 s3 F1 F3 T1 T3.
Proof.
  intros [A1 A2 A3 A4 A5 A6 A7 A8 A9] [B1 B2 B3 B4 B5 B6 B7 B8 B9]. split; [..|set_solver|set_solver|congruence|congruence|by eapply same_log_trans].
  - intros g Hg. rewrite B1; [by apply A1|set_solver].
  - intros g Hg. rewrite B2; [by apply A2|set_solver].
  - intros g Hg Hg'. destruct (decide (g ∈ F2)); [by apply B3|]. rewrite B1; [by apply A3|done].
  - intros g Hg Hg'. destruct (decide (g ∈ T2)); [by apply B4|]. rewrite B2; [by apply A4|done].
Qed.

Ltac loc := split; cbn; try done; try (match goal with
  | |- _ ⊆ _ => set_solver
  | |- ∀ g, g ∈ ?F -> g ∉ ?F -> _ => by intros g Hg Hg'; destruct (Hg' Hg)
  | |- ∀ g, g ∈ [] -> _ => by intros g Hg%elem_of_nil
  end).

(** ** Zombies go away. *)
Lemma pop_zombie s z stk F T : stack s = FinalSusp z [] :: stk -> zombie s z -> z ∉ F ->
  ∃ s', steps s s' ∧ stack s' = stk ∧ (∀ g, g ≠ z -> heap s' !! g = heap s !! g) ∧ heap s' !! z = None ∧ objs s' = objs s ∧ local s s' (z :: F) F T T.
Proof.
  intros Hs (kd & aw & o & Hz) Hni. eexists. split.
  - eapply rtc_l; [unfold stp, TaskModel.step; rewrite Hs; unfold deref; cbn [set_stack heap]; rewrite Hz; cbn; reflexivity|].
    eapply rtc_once. unfold stp, TaskModel.step. cbn. reflexivity.
  - cbn. split; [done|]. split; [intros g Hg; by rewrite lookup_delete_ne|]. split; [by rewrite lookup_delete|]. split; [done|].
    loc.
    + intros g Hg. rewrite lookup_delete_ne; [done|set_solver].
    + intros g Hg Hg'. assert (g = z) as -> by set_solver. by rewrite lookup_delete.
Qed.
Lemma pop_zombies zs : ∀ s stk F T, stack s = zs_items zs ++ stk -> Forall (zombie s) zs -> NoDup (zs ++ F) ->
  ∃ s', steps s s' ∧ stack s' = stk ∧ (∀ g, g ∉ zs -> heap s' !! g = heap s !! g) ∧ objs s' = objs s ∧ local s s' (zs ++ F) F T T.
Proof.
  induction zs as [|z zs IH]; intros s stk F T Hs Hz Hnd.
  { exists s. split; [done|]. split; [done|]. split; [done|]. split; [done|]. split; try done; cbn; try done; set_solver. }
  cbn in Hnd. apply NoDup_cons in Hnd as [Hni Hnd]. apply Forall_cons_1 in Hz as [Hz1 Hz].
  destruct (pop_zombie s z (zs_items zs ++ stk) (zs ++ F) T Hs Hz1 Hni) as (s1 & Hst & Hs1 & Hh & Hn & Ho & Hl).
  destruct (IH s1 stk F T Hs1) as (s2 & Hst2 & Hs2 & Hh2 & Ho2 & Hl2); [|done|].
  { eapply Forall_impl; [apply Forall_forall; intros x Hx; exact (conj Hx (proj1 (Forall_forall _ _) Hz x Hx))|].
    intros x [Hx (kd & aw & o & Hzx)]. exists kd, aw, o. rewrite Hh; [done|]. intros ->. set_solver. }
  exists s2. split; [by etrans|]. split; [done|]. split; [intros g Hg; rewrite Hh2 by set_solver; apply Hh; set_solver|].
  split; [congruence|]. eapply local_trans; [exact Hl|exact Hl2].
Qed.
Lemma zombies_mono s s' zs : (∀ g, g ∈ zs -> heap s' !! g = heap s !! g) -> Forall (zombie s) zs -> Forall (zombie s') zs.
Proof.
  rewrite !Forall_forall. intros Hh H x Hx. destruct (H x Hx) as (kd & aw & o & Hz). exists kd, aw, o. by rewrite Hh.
Qed.
Lemma add_zombies s st f cs stk F T zs : Forall (zombie s) zs -> below s st f cs stk F T -> below s st f cs (zs_items zs ++ stk) (zs ++ F) T.
Proof. induction 1; intros; cbn; [done|]. constructor; [done|]. auto. Qed.

(** What [below] looks like: zombies, then the caller. *)
Lemma below_inv s st f cs stk F T : below s st f cs stk F T ->
  ∃ zs stk' F', stk = zs_items zs ++ stk' ∧ F = zs ++ f :: F' ∧ Forall (zombie s) zs ∧
  ∃ kd, match cs with
  | [] => F' = [] ∧ ((stk' = [] ∧ T = [] ∧ heap s !! f = Some (Frame kd st [] 1 None [])) ∨
     ∃ t w, stk' = [Run (Plain w) (CUser (PDrop t (PRet dflt)))] ∧ T = [t] ∧ heap s !! f = Some (Frame kd st [] 2 None []) ∧ objs s !! t = Some (Obj KTask (Some f)))
  | (f', t, k) :: cs' => ∃ T', T = t :: T' ∧
     ((heap s !! f = Some (Frame kd st [] 2 None []) ∧ objs s !! t = Some (Obj KTask (Some f)) ∧
       ∃ stk'', stk' = Run (Co f') (CUser (PAwait t (cont t k))) :: stk'' ∧ below s Running f' cs' stk'' F' T') ∨
      (heap s !! f = Some (Frame kd st [f'] 2 None []) ∧ (∃ kd', objs s !! t = Some (Obj kd' (Some f))) ∧
       below s (AwaitTask f (KUser (cont t k))) f' cs' stk' F' T'))
  end.
Proof.
  induction 1 as [st f kd H|st f kd t w H Ho|st f cs z stk F T Hz H IH|st f kd f' t k cs stk F T H Ho Hb IH|st f kd f' t kd' k cs stk F T H Ho Hb IH].
  - exists [], [], []. split_and!; try done. exists kd. split; [done|]. by left.
  - exists [], [Run (Plain w) (CUser (PDrop t (PRet dflt)))], []. split_and!; try done. exists kd. split; [done|]. right. by exists t, w.
  - destruct IH as (zs & stk' & F' & -> & -> & Hzs & IH). exists (z :: zs), stk', F'. split_and!; try done. by constructor.
  - exists [], (Run (Co f') (CUser (PAwait t (cont t k))) :: stk), F. split_and!; try done. exists kd, T. split; [done|]. left. eauto.
  - exists [], stk, F. split_and!; try done. exists kd, T. split; [done|]. right. eauto.
Qed.

Lemma local_refl s F T : local s s F F T T.
Proof. split; try done. Qed.
Lemma local_cons s s' F F' T T' f t : local s s' F F' T T' -> local s s' (f :: F) (f :: F') (t :: T) (t :: T').
Proof.
  intros [A1 A2 A3 A4 A5 A6 A7 A8 A9]. split; try done; [..|set_solver|set_solver].
  - intros g Hg. apply A1. set_solver.
  - intros g Hg. apply A2. set_solver.
  - intros g Hg Hg'. apply A3; set_solver.
  - intros g Hg Hg'. apply A4; set_solver.
Qed.

(** ** The thread waits: everything below suspends. *)
Lemma unwind cs : ∀ s st f F T, below s st f cs (stack s) F T -> st ≠ Final -> NoDup F -> NoDup T ->
  ∃ s' F' T', steps s s' ∧ stack s' = [] ∧ below s' st f cs [] F' T' ∧ NoDup F' ∧ NoDup T' ∧ local s s' F F' T T'.
Proof.
  induction cs as [|[[f' t] k] cs IH]; intros s st f F T Hb Hst HF HT.
  all: destruct (below_inv _ _ _ _ _ _ _ Hb) as (zs & stk' & F0 & Hs & -> & Hz & kd & Hc).
  all: destruct (pop_zombies zs s stk' (f :: F0) T Hs Hz HF) as (s1 & Hst1 & Hs1 & Hh1 & Ho1 & Hl1).
  all: apply NoDup_app in HF as (_ & Hdis & HF); apply NoDup_cons in HF as [Hf HF].
  - destruct Hc as (-> & [(-> & -> & Hf0)|(t & w & -> & -> & Hf0 & Ht)]).
    + exists s1, [f], []. split_and!; [done..| |apply NoDup_singleton|constructor|done].
      eapply b_done. rewrite Hh1; [done|]. intros Hx. apply (Hdis f Hx). set_solver.
    + assert (Hf1 : heap s1 !! f = Some (Frame kd st [] 2 None [])). { rewrite Hh1; [done|]. intros Hx. apply (Hdis f Hx). set_solver. }
      eexists _, [f], []. split_and!; [etrans; [exact Hst1|]; eapply rtc_l; [|eapply rtc_once]| | | | |].
      * unfold stp, TaskModel.step. rewrite Hs1. cbn. unfold drop_obj. cbn. rewrite Ho1, Ht. unfold deref. cbn. rewrite Hf1. cbn. reflexivity.
      * unfold stp, TaskModel.step. cbn. reflexivity.
      * done.
      * eapply b_done. cbn. rewrite lookup_alter, Hf1. reflexivity.
      * apply NoDup_singleton.
      * by constructor.
      * eapply local_trans; [exact Hl1|]. loc.
        -- intros g Hg. rewrite lookup_alter_ne; [done|set_solver].
        -- intros g Hg. rewrite Ho1, lookup_delete_ne; [done|set_solver].
        -- intros g Hg _. assert (g = t) as -> by set_solver. by rewrite lookup_delete.
  - destruct Hc as (T' & -> & Hc). apply NoDup_cons in HT as [Ht HT].
    assert (Hff' : ∀ st0 stk0, below s st0 f' cs stk0 F0 T' -> f ≠ f'). { intros st0 stk0 H ->. apply Hf. by eapply below_in. }
    assert (Hz0 : ∀ st0 stk0, below s st0 f' cs stk0 F0 T' -> below s1 st0 f' cs stk0 F0 T').
    { intros st0 stk0 H. eapply below_mono; [exact H| |by rewrite Ho1]. intros g Hg. apply Hh1. intros Hx. apply (Hdis g Hx). set_solver. }
    assert (Hh1f : heap s1 !! f = heap s !! f). { apply Hh1. intros Hx. apply (Hdis f Hx). set_solver. }
    destruct Hc as [(Hf0 & Ht0 & stk'' & -> & Hb')|(Hf0 & (kd' & Ht0) & Hb')].
    + set (s2 := emit (EWait f' f) (upd f' (fr_status (AwaitTask f (KUser (cont t k)))) (upd f (λ fr, fr_awaiters (fawaiters fr ++ [f']) fr) (set_stack stk'' s1)))).
      assert (Hst2 : step s1 = Next s2).
      { unfold TaskModel.step. rewrite Hs1. cbn. unfold do_await. cbn. rewrite Ho1, Ht0. cbn. rewrite Hh1f, Hf0. cbn.
        unfold is_final. cbn. by destruct st. }
      assert (Hne : f ≠ f') by by eapply Hff'.
      assert (Hb2 : below s2 (AwaitTask f (KUser (cont t k))) f' cs (stack s2) F0 T').
      { pose proof (below_set _ _ (AwaitTask f (KUser (cont t k))) _ _ _ _ _ (Hz0 _ _ Hb') HF) as H.
        eapply below_mono; [exact H| |done]. intros g Hg. cbn.
        destruct (decide (g = f')) as [->|Hg']; [rewrite !lookup_alter, lookup_alter_ne by done; done|].
        rewrite !lookup_alter_ne; try done. by intros ->. }
      destruct (IH s2 _ f' F0 T' Hb2) as (s3 & F3 & T3 & Hst3 & Hs3 & Hb3 & HF3 & HT3 & Hl3); [done..|].
      pose proof (l_F _ _ _ _ _ _ Hl3) as HF3'. pose proof (l_T _ _ _ _ _ _ Hl3) as HT3'.
      exists s3, (f :: F3), (t :: T3). split_and!; [etrans; [exact Hst1|]; eapply rtc_l; [exact Hst2|exact Hst3]|done| | | |].
      * eapply (b_wait _ _ _ kd); [| |done].
        -- rewrite (l_heap _ _ _ _ _ _ Hl3) by done. cbn. rewrite lookup_alter_ne by done. rewrite lookup_alter, Hh1f, Hf0. done.
        -- rewrite (l_objs _ _ _ _ _ _ Hl3) by done. cbn. by rewrite Ho1.
      * constructor; [set_solver|done].
      * constructor; [set_solver|done].
      * eapply local_trans; [exact Hl1|]. eapply local_trans; [|by apply local_cons].
        pose proof (below_in _ _ _ _ _ _ _ Hb') as Hin. loc.
        intros g Hg. rewrite !lookup_alter_ne; [done|set_solver|set_solver].
    + destruct (IH s1 (AwaitTask f (KUser (cont t k))) f' F0 T') as (s3 & F3 & T3 & Hst3 & Hs3 & Hb3 & HF3 & HT3 & Hl3); try done.
      { rewrite Hs1. by apply Hz0. }
      pose proof (l_F _ _ _ _ _ _ Hl3) as HF3'. pose proof (l_T _ _ _ _ _ _ Hl3) as HT3'.
      exists s3, (f :: F3), (t :: T3). split_and!; [by etrans|done| | | |].
      * eapply (b_wait _ _ _ kd); [| |done].
        -- rewrite (l_heap _ _ _ _ _ _ Hl3) by done. by rewrite Hh1f.
        -- rewrite (l_objs _ _ _ _ _ _ Hl3) by done. by rewrite Ho1.
      * constructor; [set_solver|done].
      * constructor; [set_solver|done].
      * eapply local_trans; [exact Hl1|]. by apply local_cons.
Qed.

(** ** The outermost function ends. *)
Definition ended (f : fid) (o : outcome) (aw : list fid) (s : state) : state :=
  push (FinalSusp f aw) (emit (EFinish f o) (upd f (λ fr, fr_result (Some o) (fr_status Final fr)) s)).
Lemma end_root s f o F T : below s Running f [] (stack s) F T -> NoDup F -> NoDup T ->
  ∃ s1 s', finish f o s = Next s1 ∧ steps s1 s' ∧ stack s' = [] ∧ local s s' F [] T [].
Proof.
  intros Hb HF HT. destruct (below_inv _ _ _ _ _ _ _ Hb) as (zs & stk' & F0 & Hs & -> & Hz & kd & -> & Hc).
  assert (Hnz : f ∉ zs). { apply NoDup_app in HF as (_ & Hd & _). intros Hx. apply (Hd _ Hx). set_solver. }
  destruct Hc as [(-> & -> & Hf)|(t & w & -> & -> & Hf & Ht)].
  - exists (ended f o [] s).
    set (s2 := set_stack (stack s) (emit (EDestroy f) (set_heap (delete f (heap (ended f o [] s))) (ended f o [] s)))).
    destruct (pop_zombies zs s2 [] [] []) as (s3 & Hst3 & Hs3 & Hh3 & Ho3 & Hl3).
    { cbn. by rewrite Hs. }
    { eapply zombies_mono; [|exact Hz]. intros g Hg. cbn. rewrite lookup_delete_ne, lookup_alter_ne; [done|..]; by intros ->. }
    { rewrite app_nil_r. by apply NoDup_app in HF as (? & _). }
    exists s3. split_and!.
    + unfold finish. by rewrite Hf.
    + eapply rtc_l; [|eapply rtc_l; [|exact Hst3]].
      * unfold stp, TaskModel.step. cbn. unfold deref. cbn. rewrite lookup_alter, Hf. cbn. reflexivity.
      * done.
    + done.
    + eapply (local_trans _ s2 _ _ (zs ++ []) _ _ []); [|exact Hl3]. loc.
      * intros g Hg. rewrite lookup_delete_ne, lookup_alter_ne; [done|set_solver..].
      * intros g Hg Hg'. assert (g = f) as -> by set_solver. by rewrite lookup_delete.
  - exists (ended f o [] s).
    set (s2 := upd f (fr_rc 1) (set_stack (stack s) (ended f o [] s))).
    destruct (pop_zombies zs s2 [Run (Plain w) (CUser (PDrop t (PRet dflt)))] [f] [t]) as (s3 & Hst3 & Hs3 & Hh3 & Ho3 & Hl3).
    { cbn. by rewrite Hs. }
    { eapply zombies_mono; [|exact Hz]. intros g Hg. cbn. rewrite !lookup_alter_ne; [done|..]; by intros ->. }
    { done. }
    assert (Hf3 : heap s3 !! f = Some (Frame kd Final [] 1 (Some o) [])). { rewrite Hh3 by done. cbn. by rewrite !lookup_alter, Hf. }
    assert (Ht3 : objs s3 !! t = Some (Obj KTask (Some f))) by by rewrite Ho3.
    eexists. split_and!.
    + unfold finish. by rewrite Hf.
    + eapply rtc_l; [|etrans; [exact Hst3|]; eapply rtc_l; [|eapply rtc_l; [|eapply rtc_once]]].
      * unfold stp, TaskModel.step. cbn. unfold deref. cbn. rewrite lookup_alter, Hf. cbn. reflexivity.
      * unfold stp, TaskModel.step. rewrite Hs3. cbn. unfold drop_obj. cbn. rewrite Ht3. unfold deref. cbn. rewrite Hf3. cbn. reflexivity.
      * unfold stp, TaskModel.step. cbn. reflexivity.
      * unfold stp, TaskModel.step. cbn. reflexivity.
    + done.
    + eapply (local_trans _ s2 _ _ (zs ++ [f]) _ _ [t]); [|eapply local_trans; [exact Hl3|]].
      * loc. intros g Hg. rewrite !lookup_alter_ne; [done|set_solver..].
      * loc.
        -- intros g Hg. rewrite lookup_delete_ne; [done|set_solver].
        -- intros g Hg. rewrite lookup_delete_ne; [done|set_solver].
        -- intros g Hg _. assert (g = f) as -> by set_solver. by rewrite lookup_delete.
        -- intros g Hg _. assert (g = t) as -> by set_solver. by rewrite lookup_delete.
Qed.

(** ** A function returns to its caller. *)
Definition becomes (s s' : state) stk h ob : Prop := stack s' = stk ∧ heap s' = h ∧ objs s' = ob ∧ nf s' = nf s ∧ nt s' = nt s ∧ same_log s s'.
Lemma step_deref s f st kd aw r : stack s = FinalSusp f [] :: st -> heap s !! f = Some (Frame kd Final aw 2 r []) ->
  ∃ s', step s = Next s' ∧ becomes s s' st (<[f := Frame kd Final aw 1 r []]> (heap s)) (objs s).
Proof.
  intros Hs Hf. eexists. split; [unfold TaskModel.step; rewrite Hs; unfold deref; cbn; rewrite Hf; cbn; reflexivity|].
  split_and!; cbn; try done. apply map_eq. intros g. destruct (decide (g = f)) as [->|?]; [by rewrite lookup_alter, Hf, lookup_insert|by rewrite lookup_alter_ne, lookup_insert_ne].
Qed.
Lemma step_await_final s f f' t k st kd kd' aw n o : stack s = Run (Co f') (CUser (PAwait t k)) :: st -> objs s !! t = Some (Obj kd' (Some f)) ->
  heap s !! f = Some (Frame kd Final aw n (Some o) []) ->
  ∃ s', step s = Next s' ∧ becomes s s' (Run (Co f') (CUser (k o)) :: st) (<[f := Frame kd Final aw n (Some (consumed mv o)) []]> (heap s)) (objs s).
Proof.
  intros Hs Ht Hf. eexists. split.
  - unfold TaskModel.step; rewrite Hs; cbn. unfold do_await; cbn; rewrite Ht; cbn; rewrite Hf; cbn. unfold take_result; cbn; rewrite Hf; cbn; reflexivity.
  - split_and!; cbn; try done. apply map_eq. intros g. destruct (decide (g = f)) as [->|?]; [by rewrite lookup_alter, Hf, lookup_insert|by rewrite lookup_alter_ne, lookup_insert_ne].
Qed.
Lemma step_drop_last s w f t p st kd kd' aw r : stack s = Run w (CUser (PDrop t p)) :: st -> objs s !! t = Some (Obj kd' (Some f)) ->
  heap s !! f = Some (Frame kd Final aw 1 r []) ->
  ∃ s', steps s s' ∧ becomes s s' (Run w (CUser p) :: st) (delete f (heap s)) (delete t (objs s)).
Proof.
  intros Hs Ht Hf. eexists. split.
  - eapply rtc_l; [|eapply rtc_once].
    + unfold stp, TaskModel.step; rewrite Hs; cbn. unfold drop_obj; cbn; rewrite Ht; cbn. unfold deref; cbn. rewrite Hf; cbn; reflexivity.
    + unfold stp, TaskModel.step. cbn. reflexivity.
  - done.
Qed.
Lemma step_drop s w f t p st kd kd' aw r : stack s = Run w (CUser (PDrop t p)) :: st -> objs s !! t = Some (Obj kd' (Some f)) ->
  heap s !! f = Some (Frame kd Final aw 2 r []) ->
  ∃ s', step s = Next s' ∧ becomes s s' (Run w (CUser p) :: st) (<[f := Frame kd Final aw 1 r []]> (heap s)) (delete t (objs s)).
Proof.
  intros Hs Ht Hf. eexists. split; [unfold TaskModel.step; rewrite Hs; cbn; unfold drop_obj; cbn; rewrite Ht; cbn; unfold deref; cbn; rewrite Hf; cbn; reflexivity|].
  split_and!; cbn; try done. apply map_eq. intros g. destruct (decide (g = f)) as [->|?]; [by rewrite lookup_alter, Hf, lookup_insert|by rewrite lookup_alter_ne, lookup_insert_ne].
Qed.
Lemma step_wake s f f' k st kd aw n o fr : f ≠ f' -> stack s = FinalSusp f [f'] :: st -> heap s !! f' = Some fr -> fstatus fr = AwaitTask f (KUser k) ->
  heap s !! f = Some (Frame kd Final aw n (Some o) []) ->
  ∃ s', step s = Next s' ∧ becomes s s' (Run (Co f') (CUser (k o)) :: FinalSusp f [] :: st)
    (<[f := Frame kd Final aw n (Some (consumed mv o)) []]> (alter (fr_status Running) f' (heap s))) (objs s).
Proof.
  intros Hne Hs Hf' Hst Hf. eexists. split.
  - unfold TaskModel.step; rewrite Hs, Hf', Hst, Hf; cbn. unfold take_result; cbn. rewrite lookup_alter_ne, Hf by done. cbn. reflexivity.
  - split_and!; cbn; try done. apply map_eq. intros g. destruct (decide (g = f)) as [->|?]; [by rewrite lookup_alter, lookup_alter_ne, Hf, lookup_insert by done|by rewrite (lookup_alter_ne (fr_result _) _ f), lookup_insert_ne].
Qed.
Lemma ended_becomes s f o aw kd : heap s !! f = Some (Frame kd Running aw 2 None []) ->
  ∃ s', finish f o s = Next s' ∧ becomes s s' (FinalSusp f aw :: stack s) (<[f := Frame kd Final aw 2 (Some o) []]> (heap s)) (objs s).
Proof.
  intros Hf. eexists. split; [unfold finish; rewrite Hf; reflexivity|].
  split_and!; cbn; try done. apply map_eq. intros g. destruct (decide (g = f)) as [->|?]; [by rewrite lookup_alter, Hf, lookup_insert|by rewrite lookup_alter_ne, lookup_insert_ne].
Qed.

Lemma return_caller s f o f' t k cs F T : below s Running f ((f', t, k) :: cs) (stack s) F T -> NoDup F -> NoDup T ->
  ∃ s1 s' F' T' stk, finish f o s = Next s1 ∧ steps s1 s' ∧ stack s' = Run (Co f') (CUser (coro (k o))) :: stk ∧
    below s' Running f' cs stk F' T' ∧ NoDup F' ∧ NoDup T' ∧ local s s' F F' T T'.
Proof.
  intros Hb HF HT. destruct (below_inv _ _ _ _ _ _ _ Hb) as (zs & stk' & F0 & Hs & -> & Hz & kd & T0 & -> & Hc).
  pose proof HF as (HFz & Hdis & HF1)%NoDup_app. apply NoDup_cons in HF1 as [Hf0 HF0]. apply NoDup_cons in HT as [Ht0 HT0].
  assert (Hnz : f ∉ zs). { intros Hx. apply (Hdis _ Hx). set_solver. }
  assert (Hz0 : ∀ x, x ∈ zs -> x ∉ F0). { intros x Hx Hx'. apply (Hdis _ Hx). set_solver. }
  destruct Hc as [(Hf & Ht & stk'' & -> & Hb')|(Hf & (kd' & Ht) & Hb')].
  - destruct (ended_becomes s f o [] kd Hf) as (s1 & Hs1 & Hk1 & Hh1 & Ho1 & Hnf1 & Hnt1 & Hlg1).
    destruct (step_deref s1 f (stack s) kd [] (Some o) Hk1) as (s2 & Hs2 & Hk2 & Hh2 & Ho2 & Hnf2 & Hnt2 & Hlg2); [by rewrite Hh1, lookup_insert|].
    rewrite Hh1, insert_insert in Hh2. rewrite Ho1 in Ho2.
    destruct (pop_zombies zs s2 (Run (Co f') (CUser (PAwait t (cont t k))) :: stk'') (f :: F0) (t :: T0)) as (s3 & Hst3 & Hs3 & Hh3 & Ho3 & Hl3).
    { by rewrite Hk2, Hs. }
    { eapply zombies_mono; [|exact Hz]. intros g Hg. rewrite Hh2, lookup_insert_ne; [done|]. by intros ->. }
    { done. }
    assert (Hf3 : heap s3 !! f = Some (Frame kd Final [] 1 (Some o) [])). { by rewrite Hh3, Hh2, lookup_insert by done. }
    assert (Ht3 : objs s3 !! t = Some (Obj KTask (Some f))) by by rewrite Ho3, Ho2.
    assert (Hb3 : below s3 Running f' cs stk'' F0 T0).
    { eapply below_mono; [exact Hb'| |by rewrite Ho3, Ho2]. intros g Hg. rewrite Hh3; [|intros Hx; by apply (Hz0 g)].
      rewrite Hh2, lookup_insert_ne; [done|]. by intros ->. }
    destruct (step_await_final s3 f f' t (cont t k) stk'' kd KTask [] 1 o Hs3 Ht3 Hf3) as (s4 & Hs4 & Hk4 & Hh4 & Ho4 & Hnf4 & Hnt4 & Hlg4).
    destruct (step_drop_last s4 (Co f') f t (coro (k o)) stk'' kd KTask [] (Some (consumed mv o)) Hk4) as (s5 & Hs5 & Hk5 & Hh5 & Ho5 & Hnf5 & Hnt5 & Hlg5);
      [by rewrite Ho4|by rewrite Hh4, lookup_insert|].
    exists s1, s5, F0, T0, stk''. split_and!; try done.
    + eapply rtc_l; [exact Hs2|]. etrans; [exact Hst3|]. eapply rtc_l; [exact Hs4|exact Hs5].
    + eapply below_mono; [exact Hb3|..]; intros g Hg.
      * rewrite Hh5, Hh4, lookup_delete_ne, lookup_insert_ne; [done|..]; by intros ->.
      * rewrite Ho5, Ho4, lookup_delete_ne; [done|]. by intros ->.
    + eapply (local_trans _ s2 _ _ (zs ++ f :: F0) _ _ (t :: T0)); [|eapply local_trans; [exact Hl3|]].
      * split; try done; [..|congruence|congruence|by eapply same_log_trans].
        -- intros g Hg. rewrite Hh2, lookup_insert_ne; [done|set_solver].
        -- intros g Hg. by rewrite Ho2.
      * split; [..|set_solver|set_solver|congruence|congruence|by eapply same_log_trans].
        -- intros g Hg. rewrite Hh5, Hh4, lookup_delete_ne, lookup_insert_ne; [done|set_solver..].
        -- intros g Hg. rewrite Ho5, Ho4, lookup_delete_ne; [done|set_solver].
        -- intros g Hg Hg'. assert (g = f) as -> by set_solver. by rewrite Hh5, lookup_delete.
        -- intros g Hg Hg'. assert (g = t) as -> by set_solver. by rewrite Ho5, lookup_delete.
  - assert (Hne : f ≠ f'). { intros ->. apply Hf0. by eapply below_in. }
    pose proof (below_in _ _ _ _ _ _ _ Hb') as Hin.
    destruct (below_status _ _ _ _ _ _ _ Hb') as (fr' & Hf' & Hst' & _).
    destruct (ended_becomes s f o [f'] kd Hf) as (s1 & Hs1 & Hk1 & Hh1 & Ho1 & Hnf1 & Hnt1 & Hlg1).
    destruct (step_wake s1 f f' (cont t k) (stack s) kd [f'] 2 o fr' Hne Hk1) as (s2 & Hs2 & Hk2 & Hh2 & Ho2 & Hnf2 & Hnt2 & Hlg2);
      [by rewrite Hh1, lookup_insert_ne|done|by rewrite Hh1, lookup_insert|].
    destruct (step_drop s2 (Co f') f t (coro (k o)) (FinalSusp f [] :: stack s) kd kd' [f'] (Some (consumed mv o)) Hk2) as (s3 & Hs3 & Hk3 & Hh3 & Ho3 & Hnf3 & Hnt3 & Hlg3);
      [by rewrite Ho2, Ho1|by rewrite Hh2, lookup_insert|].
    assert (Hh : ∀ g, g ≠ f -> g ≠ f' -> heap s3 !! g = heap s !! g).
    { intros g ? ?. by rewrite Hh3, Hh2, !lookup_insert_ne, lookup_alter_ne, Hh1, lookup_insert_ne by done. }
    exists s1, s3, (f :: zs ++ F0), T0, (FinalSusp f [] :: stack s). split_and!; try done.
    + eapply rtc_l; [exact Hs2|by eapply rtc_once].
    + constructor.
      * exists kd, [f'], (consumed mv o). by rewrite Hh3, lookup_insert.
      * rewrite Hs. apply add_zombies.
        -- eapply zombies_mono; [|exact Hz]. intros g Hg. apply Hh; [by intros ->|]. intros ->. by apply (Hz0 f').
        -- eapply below_mono; [by apply (below_set _ _ Running _ _ _ _ _ Hb')|..]; intros g Hg; cbn.
           ++ assert (g ≠ f) by (intros ->; done). destruct (decide (g = f')) as [->|?]; [|by rewrite Hh, lookup_alter_ne by done].
              by rewrite Hh3, Hh2, !lookup_insert_ne, !lookup_alter, Hh1, lookup_insert_ne by done.
           ++ rewrite Ho3, Ho2, Ho1, lookup_delete_ne; [done|]. by intros ->.
    + constructor; [set_solver|]. apply NoDup_app. split_and!; [done|by apply Hz0|done].
    + split; [..|set_solver|set_solver|congruence|congruence|eapply same_log_trans; [eapply same_log_trans; [exact Hlg1|exact Hlg2]|exact Hlg3]].
      * intros g Hg. apply Hh; set_solver.
      * intros g Hg. rewrite Ho3, Ho2, Ho1, lookup_delete_ne; [done|set_solver].
      * intros g Hg Hg'. exfalso. set_solver.
      * intros g Hg Hg'. assert (g = t) as -> by set_solver. by rewrite Ho3, lookup_delete.
Qed.

(** ** The relation between executions and cooperative threads *)
Record thr := Thr { th_c : outcome -> fn V; th_f : fid; th_cs : list caller; th_F : list fid; th_T : list tid }.
Notation ks cs := (map snd (cs : list caller)).

Definition run_ok (s : state) (r : option (fn V * frames)) (F : list fid) (T : list tid) : Prop :=
  match r with
  | None => stack s = [] ∧ F = [] ∧ T = []
  | Some (p, k) => ∃ f cs stk, stack s = Run (Co f) (CUser (coro p)) :: stk ∧ k = ks cs ∧ below s Running f cs stk F T ∧ NoDup F ∧ NoDup T
  end.
Definition thr_ok (s : state) (n : nat) (w : thr) : Prop :=
  below s (AwaitLeaf (λ o, coro (th_c w o))) (th_f w) (th_cs w) [] (th_F w) (th_T w) ∧ NoDup (th_F w) ∧ NoDup (th_T w) ∧ ticket (th_f w) (trace s) = Some n.
Record rel (s : state) (P : program V) (W : gmap nat thr) (F : list fid) (T : list tid) : Prop := Rel {
  r_wait : waiting P = (λ w, (th_c w, ks (th_cs w))) <$> W;
  r_thr : ∀ n w, W !! n = Some w -> thr_ok s n w;
  r_disj : ∀ n m w w', W !! n = Some w -> W !! m = Some w' -> n ≠ m -> (∀ g, g ∈ th_F w -> g ∉ th_F w') ∧ (∀ t, t ∈ th_T w -> t ∉ th_T w');
  r_disjr : ∀ n w, W !! n = Some w -> (∀ g, g ∈ th_F w -> g ∉ F) ∧ (∀ t, t ∈ th_T w -> t ∉ T);
  r_heap : ∀ g, is_Some (heap s !! g) -> g < nf s ∧ (g ∈ F ∨ ∃ n w, W !! n = Some w ∧ g ∈ th_F w);
  r_objs : ∀ t, is_Some (objs s !! t) -> t < nt s ∧ (t ∈ T ∨ ∃ n w, W !! n = Some w ∧ t ∈ th_T w);
  r_run : run_ok s (running P) F T;
  r_log : seen (trace s) = log P ∧ waits (trace s) = tickets P;
  r_fresh : ∀ n, is_Some (W !! n) -> n < tickets P }.

Lemma run_heap s r F T g : run_ok s r F T -> g ∈ F -> is_Some (heap s !! g).
Proof. destruct r as [[p k]|]; [intros (f & cs & stk & _ & _ & H & _); by eapply below_heap|]. intros (_ & -> & _). set_solver. Qed.
Lemma run_objs s r F T t : run_ok s r F T -> t ∈ T -> is_Some (objs s !! t).
Proof. destruct r as [[p k]|]; [intros (f & cs & stk & _ & _ & H & _); by eapply below_objs|]. intros (_ & _ & ->). set_solver. Qed.

(** The running thread changed only what is its own; the others are not affected. *)
Lemma rel_local s s' P r' F F' T T' W : rel s P W F T -> local s s' F F' T T' -> run_ok s' r' F' T' ->
  rel s' (Program r' (waiting P) (log P) (tickets P)) W F' T'.
Proof.
  intros [A1 A2 A3 A4 A5 A6 A7 A8 A9] [B1 B2 B3 B4 B5 B6 B7 B8 (B9 & B10 & B11)] Hr. split; cbn; try done.
  - intros n w Hw. destruct (A2 n w Hw) as (Hb & ? & ? & ?). destruct (A4 n w Hw) as [HF HT]. split_and!; try done; [|by rewrite B11].
    eapply below_mono; [exact Hb|..]; intros g Hg; [apply B1, HF|apply B2, HT]; done.
  - intros n w Hw. destruct (A4 n w Hw) as [HF HT]. split; intros g Hg Hg'; [eapply HF|eapply HT]; eauto.
  - intros g Hg. rewrite B7. destruct (decide (g ∈ F)) as [HgF|HgF].
    + destruct (decide (g ∈ F')); [|rewrite B3 in Hg by done; by destruct Hg]. split; [|by left].
      apply A5. by eapply run_heap.
    + rewrite B1 in Hg by done. destruct (A5 g Hg) as [? [?|?]]; [done|]. split; [done|]. by right.
  - intros g Hg. rewrite B8. destruct (decide (g ∈ T)) as [HgF|HgF].
    + destruct (decide (g ∈ T')); [|rewrite B4 in Hg by done; by destruct Hg]. split; [|by left].
      apply A6. by eapply run_objs.
    + rewrite B2 in Hg by done. destruct (A6 g Hg) as [? [?|?]]; [done|]. split; [done|]. by right.
  - rewrite B9, B10. done.
Qed.

Definition R (s : state) (P : program V) : Prop := ∃ W F T, rel s P W F T.

Lemma rel_emit s P W F T e : rel s P W F T -> (∀ f, ticket f (e :: trace s) = ticket f (trace s)) -> waits (e :: trace s) = waits (trace s) ->
  rel (emit e s) (Program (running P) (waiting P) (seen (e :: trace s)) (tickets P)) W F T.
Proof.
  intros [A1 A2 A3 A4 A5 A6 A7 A8 A9] Ht Hw.
  assert (Hm : ∀ st f cs stk F T, below s st f cs stk F T -> below (emit e s) st f cs stk F T) by (intros; by eapply below_mono).
  split; try done; cbn -[ticket waits seen]; [..|rewrite Hw; by destruct A8].
  - intros n w Hn. destruct (A2 n w Hn) as (? & ? & ? & ?). split_and!; try done; [by apply Hm|]. cbn [trace emit]. by rewrite Ht.
  - destruct (running P) as [[p k]|]; [|done]. destruct A7 as (f & cs & stk & ? & ? & ? & ? & ?). exists f, cs, stk. split_and!; try done. by apply Hm.
Qed.

(** A call: a new coroutine and a new Task. *)
Lemma rel_fresh s s' P r' F T W : rel s P W F T -> (∀ g, g ∉ F -> g ≠ nf s -> heap s' !! g = heap s !! g) -> (∀ t, t ≠ nt s -> objs s' !! t = objs s !! t) ->
  nf s' = S (nf s) -> nt s' = S (nt s) -> same_log s s' -> run_ok s' r' (nf s :: F) (nt s :: T) ->
  rel s' (Program r' (waiting P) (log P) (tickets P)) W (nf s :: F) (nt s :: T).
Proof.
  intros [A1 A2 A3 A4 A5 A6 A7 A8 A9] B1 B2 B7 B8 (B9 & B10 & B11) Hr.
  assert (HF : ∀ n w g, W !! n = Some w -> g ∈ th_F w -> g < nf s).
  { intros n w g Hw Hg. apply A5. destruct (A2 n w Hw) as (Hb & _). by eapply below_heap. }
  assert (HT : ∀ n w g, W !! n = Some w -> g ∈ th_T w -> g < nt s).
  { intros n w g Hw Hg. apply A6. destruct (A2 n w Hw) as (Hb & _). by eapply below_objs. }
  split; cbn; try done.
  - intros n w Hw. destruct (A2 n w Hw) as (Hb & ? & ? & ?). destruct (A4 n w Hw) as [HF' HT']. split_and!; try done; [|by rewrite B11].
    eapply below_mono; [exact Hb|..]; intros g Hg.
    + apply B1; [by apply HF'|]. pose proof (HF _ _ _ Hw Hg). lia.
    + apply B2. pose proof (HT _ _ _ Hw Hg). lia.
  - intros n w Hw. destruct (A4 n w Hw) as [HF' HT']. split; intros g Hg; (intros [Hg'|Hg']%elem_of_cons; [|naive_solver]).
    + pose proof (HF _ _ _ Hw Hg). lia.
    + pose proof (HT _ _ _ Hw Hg). lia.
  - intros g Hg. rewrite B7. destruct (decide (g = nf s)) as [->|Hn]; [split; [lia|left; set_solver]|].
    destruct (decide (g ∈ F)) as [HgF|HgF].
    + destruct (A5 g) as [? _]; [by eapply run_heap|]. split; [lia|]. left. set_solver.
    + rewrite B1 in Hg by done. destruct (A5 g Hg) as [? [?|?]]; [done|]. split; [lia|]. by right.
  - intros g Hg. rewrite B8. destruct (decide (g = nt s)) as [->|Hn]; [split; [lia|left; set_solver]|].
    rewrite B2 in Hg by done. destruct (A6 g Hg) as [? [?|?]]; [split; [lia|left; set_solver]|]. split; [lia|]. by right.
  - rewrite B9, B10. done.
Qed.

Lemma local_stack s s' stk F F' T T' : local (set_stack stk s) s' F F' T T' -> local s s' F F' T T'.
Proof. by intros [A1 A2 A3 A4 A5 A6 A7 A8 A9]. Qed.

(** The running thread waits. *)
Lemma rel_wait s P W F T f cs stk c k : rel s P W F T -> running P = Some (FWait c, k) -> stack s = Run (Co f) (CUser (coro (FWait c))) :: stk -> k = ks cs ->
  below s Running f cs stk F T -> NoDup F -> NoDup T ->
  ∃ s1 s', step s = Next s1 ∧ steps s1 s' ∧ R s' (Program None (<[tickets P := (c, k)]> (waiting P)) (LWait :: log P) (S (tickets P))) ∧ seen (trace s1) = LWait :: log P.
Proof.
  intros HR Hrun Hs -> Hb HF HT. pose proof HR as [A1 A2 A3 A4 A5 A6 A7 [A8 A8'] A9].
  set (s1 := emit (ELeafWait f) (upd f (fr_status (AwaitLeaf (λ o, coro (c o)))) (set_stack stk s))).
  assert (Hst1 : step s = Next s1). { unfold TaskModel.step. rewrite Hs. reflexivity. }
  assert (Hb1 : below s1 (AwaitLeaf (λ o, coro (c o))) f cs (stack s1) F T).
  { eapply below_mono; [by apply (below_set _ _ (AwaitLeaf (λ o, coro (c o))) _ _ _ _ _ Hb)|done|done]. }
  destruct (unwind _ _ _ _ _ _ Hb1) as (s' & F' & T' & Hst & Hs' & Hb' & HF' & HT' & Hl); [done..|].
  exists s1, s'. split_and!; [done..| |cbn; by rewrite A8].
  destruct Hl as [B1 B2 B3 B4 B5 B6 B7 B8 (B9 & B10 & B11)].
  pose proof (below_in _ _ _ _ _ _ _ Hb) as Hin.
  assert (H1 : ∀ g, g ∉ F -> heap s1 !! g = heap s !! g). { intros g Hg. cbn. apply lookup_alter_ne. by intros ->. }
  assert (Hfr : W !! tickets P = None). { destruct (W !! tickets P) eqn:E; [|done]. pose proof (A9 (tickets P) ltac:(by eexists)). lia. }
  exists (<[tickets P := Thr c f cs F' T']> W), [], []. split; cbn [running waiting log tickets].
  - by rewrite A1, fmap_insert.
  - intros n w [[<- <-]|[Hn Hw]]%lookup_insert_Some.
    + split_and!; try done. cbn. rewrite B11. cbn. rewrite decide_True by done. by rewrite A8'.
    + destruct (A2 n w Hw) as (Hbw & ? & ? & Htk). destruct (A4 n w Hw) as [HFw HTw].
      split_and!; try done.
      * eapply below_mono; [exact Hbw|..]; intros g Hg; [rewrite B1, H1; [done|by apply HFw..]|by rewrite B2 by (by apply HTw)].
      * rewrite B11. cbn. rewrite decide_False; [done|]. intros <-. apply (HFw (th_f w)); [by eapply below_in|done].
  - intros n m w w' [[<- <-]|[Hn Hw]]%lookup_insert_Some [[<- <-]|[Hm Hw']]%lookup_insert_Some Hne; cbn; try done.
    + destruct (A4 _ _ Hw') as [HFw HTw]. split; intros g Hg Hg'; [by eapply HFw, B5|by eapply HTw, B6].
    + destruct (A4 _ _ Hw) as [HFw HTw]. split; intros g Hg Hg'; [by eapply HFw, B5|by eapply HTw, B6].
    + by eapply A3.
  - intros n w _. split; intros g _; apply not_elem_of_nil.
  - intros g Hg. rewrite B7. change (nf s1) with (nf s). destruct (decide (g ∈ F)) as [HgF|HgF].
    + split; [apply A5; by eapply below_heap|]. destruct (decide (g ∈ F')); [|rewrite B3 in Hg by done; by destruct Hg].
      right. exists (tickets P), (Thr c f cs F' T'). by rewrite lookup_insert.
    + rewrite B1, H1 in Hg by done. destruct (A5 g Hg) as [? [?|(n & w & Hw & ?)]]; [done|]. split; [done|]. right. exists n, w.
      rewrite lookup_insert_ne; [done|]. intros <-. congruence.
  - intros g Hg. rewrite B8. change (nt s1) with (nt s). destruct (decide (g ∈ T)) as [HgF|HgF].
    + split; [apply A6; by eapply below_objs|]. destruct (decide (g ∈ T')); [|rewrite B4 in Hg by done; by destruct Hg].
      right. exists (tickets P), (Thr c f cs F' T'). by rewrite lookup_insert.
    + rewrite B2 in Hg by done. destruct (A6 g Hg) as [? [?|(n & w & Hw & ?)]]; [done|]. split; [done|]. right. exists n, w.
      rewrite lookup_insert_ne; [done|]. intros <-. congruence.
  - done.
  - rewrite B9, B10. cbn. by rewrite A8, A8'.
  - intros n [x [[<- <-]|[Hn Hw]]%lookup_insert_Some]; [lia|]. pose proof (A9 n ltac:(by eexists)). lia.
Qed.

(** The running thread calls a function. *)
Lemma rel_call s P W F T f cs stk kd b c : rel s P W F T -> stack s = Run (Co f) (CUser (coro (FCall kd b c))) :: stk ->
  below s Running f cs stk F T -> NoDup F -> NoDup T -> running P = Some (FCall kd b c, ks cs) ->
  ∃ s1 s', step s = Next s1 ∧ steps s1 s' ∧ R s' (Program (Some (b, c :: ks cs)) (waiting P) (log P) (tickets P)) ∧ seen (trace s1) = log P.
Proof.
  intros HR Hs Hb HF HT Hrun. pose proof HR as [A1 A2 A3 A4 A5 A6 A7 [A8 A8'] A9].
  assert (HnF : nf s ∉ F). { intros H. destruct (A5 (nf s)) as [? _]; [by eapply below_heap|]. lia. }
  assert (HnT : nt s ∉ T). { intros H. destruct (A6 (nt s)) as [? _]; [by eapply below_objs|]. lia. }
  pose proof (below_in _ _ _ _ _ _ _ Hb) as Hin.
  assert (Hne : f ≠ nf s) by (by intros ->).
  destruct kd.
  - eexists _, _. split_and!.
    + unfold TaskModel.step. rewrite Hs. cbn. reflexivity.
    + reflexivity.
    + exists W, (nf s :: F), (nt s :: T). eapply rel_fresh; try done; cbn.
      * intros g Hg Hg'. by rewrite lookup_insert_ne.
      * intros g Hg. by rewrite lookup_insert_ne.
      * lia.
      * exists (nf s), ((f, nt s, c) :: cs), (Run (Co f) (CUser (PAwait (nt s) (cont (nt s) c))) :: stk).
        split_and!; [done|done| |by constructor|by constructor].
        eapply b_call; cbn; [by rewrite lookup_insert|by rewrite lookup_insert|].
        eapply below_mono; [exact Hb|..]; intros g Hg; cbn; (rewrite lookup_insert_ne; [done|]); congruence || (intros Heq; by rewrite <-Heq in Hg).
    + done.
  - destruct (below_status _ _ _ _ _ _ _ Hb) as (fr & Hfr & _).
    eexists _, _. split_and!.
    + unfold TaskModel.step. rewrite Hs. cbn. reflexivity.
    + eapply rtc_once. unfold stp, TaskModel.step. cbn. unfold do_await. cbn. rewrite lookup_insert. cbn. rewrite lookup_insert. cbn. reflexivity.
    + exists W, (nf s :: F), (nt s :: T). eapply rel_fresh; try done; cbn.
      * intros g Hg Hg'. assert (g ≠ f) by (by intros ->). by rewrite !lookup_alter_ne, lookup_insert_ne by done.
      * intros g Hg. by rewrite lookup_insert_ne.
      * lia.
      * exists (nf s), ((f, nt s, c) :: cs), stk.
        split_and!; [done|done| |by constructor|by constructor].
        eapply b_wait; cbn; [|by rewrite lookup_insert|].
        -- rewrite lookup_alter, lookup_alter_ne, lookup_alter, lookup_insert by done. reflexivity.
        -- eapply below_mono; [by apply (below_set _ _ (AwaitTask (nf s) (KUser (cont (nt s) c))) _ _ _ _ _ Hb)|..]; intros g Hg; cbn.
           ++ assert (g ≠ nf s) by (by intros ->). rewrite lookup_alter_ne by done.
              destruct (decide (g = f)) as [->|?]; [rewrite !lookup_alter, lookup_alter_ne, lookup_insert_ne by done; done|].
              by rewrite !lookup_alter_ne, lookup_insert_ne by done.
           ++ rewrite lookup_insert_ne; [done|]. intros Heq. by rewrite <-Heq in Hg.
    + done.
Qed.

(** A step of the running thread is one or more steps of the machine, and what is to be seen of it is seen in the first. *)
Lemma simulate s P P' : R s P -> go P = Some P' ->
  ∃ s1 s', step s = Next s1 ∧ steps s1 s' ∧ R s' P' ∧ seen (trace s1) = log P'.
Proof.
  intros (W & F & T & HR) Hgo. pose proof (r_run _ _ _ _ _ HR) as Hrun. pose proof (r_log _ _ _ _ _ HR) as [Hlog _]. unfold go in Hgo.
  destruct (running P) as [[p k]|] eqn:Ep; [|done]. injection Hgo as <-.
  destruct Hrun as (f & cs & stk & Hs & -> & Hb & HF & HT).
  assert (Hfin : ∀ o, (step s = finish f o (set_stack stk s)) -> ∃ s1 s', step s = Next s1 ∧ steps s1 s' ∧
    R s' (Program (return_to o (ks cs)) (waiting P) (log P) (tickets P)) ∧ seen (trace s1) = log P).
  { intros o Hst. assert (Hb' : below (set_stack stk s) Running f cs (stack (set_stack stk s)) F T) by (by eapply below_mono).
    assert (Hsee : ∀ s1, finish f o (set_stack stk s) = Next s1 -> seen (trace s1) = log P).
    { unfold finish. cbn. intros s1. destruct (heap s !! f); [|done]. intros [= <-]. done. }
    destruct cs as [|[[f' t] k] cs].
    - destruct (end_root _ _ o _ _ Hb' HF HT) as (s1 & s' & Hf1 & Hst' & Hs' & Hl).
      exists s1, s'. split_and!; [congruence|done| |by apply Hsee]. exists W, [], []. eapply rel_local; [exact HR|by eapply local_stack|done].
    - destruct (return_caller _ _ o _ _ _ _ _ _ Hb' HF HT) as (s1 & s' & F' & T' & stk' & Hf1 & Hst' & Hs' & Hb1 & HF' & HT' & Hl).
      exists s1, s'. split_and!; [congruence|done| |by apply Hsee]. exists W, F', T'. eapply rel_local; [exact HR|by eapply local_stack|].
      by exists f', cs, stk'. }
  destruct p as [v|e|n p|c|kd b c].
  - apply Hfin. unfold TaskModel.step. by rewrite Hs.
  - apply Hfin. unfold TaskModel.step. by rewrite Hs.
  - eexists _, _. split_and!; [unfold TaskModel.step; rewrite Hs; cbn; reflexivity|reflexivity| |cbn; by rewrite Hlog].
    exists W, F, T. set (s0 := push (Run (Co f) (CUser (coro p))) (set_stack stk s)).
    assert (H0 : rel s0 (Program (Some (p, ks cs)) (waiting P) (log P) (tickets P)) W F T).
    { eapply rel_local; [exact HR|by split|]. exists f, cs, stk. split_and!; try done. by eapply below_mono. }
    pose proof (rel_emit _ _ _ _ _ (EObs (Co f) (OUser n)) H0) as H. cbn in H. rewrite <-Hlog. apply H; done.
  - eapply rel_wait; done.
  - exact (rel_call s P W F T f cs stk kd b c HR Hs Hb HF HT Ep).
Qed.

(** ** The event loop *)
Lemma idle_rel s P : R s P -> running P = None -> stack s = [] ∧ step s = Idle.
Proof. intros (W & F & T & HR) Hn. pose proof (r_run _ _ _ _ _ HR) as H. rewrite Hn in H. destruct H as [H _]. unfold TaskModel.step. by rewrite H. Qed.

Definition start (P : program V) (p : fn V) : program V := Program (Some (p, [])) (waiting P) (LStart :: log P) (tickets P).
Definition wake (P : program V) n o c k : program V := Program (Some (c o, k)) (delete n (waiting P)) (LWake n o :: log P) (tickets P).

Lemma simulate_start s P p : R s P -> running P = None -> ∃ s1 s2, env_step mv dflt (EvHandler (handler dflt p)) s = Next s1 ∧
  step s1 = Next s2 ∧ R s2 (start P p) ∧ seen (trace s1) = log P.
Proof.
  intros HR Hn. destruct (idle_rel s P HR Hn) as [Hs Hi]. destruct HR as (W & F & T & HR).
  pose proof (r_run _ _ _ _ _ HR) as Hrun. pose proof (r_log _ _ _ _ _ HR) as [Hlog _]. rewrite Hn in Hrun. destruct Hrun as (_ & -> & ->).
  eexists _, _. split_and!.
  - unfold env_step, is_idle. rewrite Hi. reflexivity.
  - unfold TaskModel.step. cbn. reflexivity.
  - exists W, [S (nf s)], [nt s].
    set (s0 := State (heap s) (objs s) (alive s) (ctxs s) [] (trace s) (S (nf s)) (nt s) (nc s)).
    assert (H0 : rel s0 P W [] []).
    { destruct HR as [A1 A2 A3 A4 A5 A6 A7 A8 A9]. split; try done.
      - intros n w Hw. destruct (A2 n w Hw) as (? & ? & ? & ?). split_and!; try done. by eapply below_mono.
      - cbn. intros g Hg. destruct (A5 g Hg). split; [lia|done].
      - by rewrite Hn. }
    match goal with |- rel ?x _ _ _ _ => set (s2 := x) end.
    set (s1 := State (heap s2) (objs s2) (alive s2) (ctxs s2) (stack s2) (EStart (S (nf s)) :: EAct (Plain (nf s)) (ACall (nt s) (S (nf s)) []) :: trace s) (nf s2) (nt s2) (nc s2)).
    assert (H1 : rel s1 (Program (Some (p, [])) (waiting P) (log P) (tickets P)) W [S (nf s)] [nt s]).
    { eapply (rel_fresh s0 s1); try done; cbn.
      - intros g _ Hg. by rewrite lookup_insert_ne.
      - intros g Hg. by rewrite lookup_insert_ne.
      - lia.
      - exists (S (nf s)), [], [Run (Plain (nf s)) (CUser (PDrop (nt s) (PRet dflt)))]. split_and!; [cbn; by rewrite Hs|done| |apply NoDup_singleton..].
        eapply b_root; cbn; by rewrite lookup_insert. }
    pose proof (rel_emit _ _ _ _ _ (ECreate (S (nf s)) KTask (CUser (coro p)) (Plain (nf s))) H1) as H2. cbn in H2. rewrite Hlog in H2.
    specialize (H2 (λ _, eq_refl) eq_refl). destruct H2 as [A1 A2 A3 A4 A5 A6 A7 A8 A9]. split; try done.
    + intros n w Hw. destruct (A2 n w Hw) as (? & ? & ? & ?). split_and!; try done. by eapply below_mono.
    + destruct A7 as (f & cs & stk & ? & ? & ? & ? & ?). exists f, cs, stk. split_and!; try done. by eapply below_mono.
  - done.
Qed.

Lemma below_leaf s st f cs stk F T g fr c : below s st f cs stk F T -> g ∈ F -> heap s !! g = Some fr -> fstatus fr = AwaitLeaf c -> g = f ∧ st = AwaitLeaf c.
Proof.
  intros H. induction H as [st f kd H|st f kd t w H Ho|st f cs z stk F T (kd & aw & o & Hz) H IH|st f kd f' t k cs stk F T H Ho Hb IH|st f kd f' t kd' k cs stk F T H Ho Hb IH]; intros Hg Hh Hst.
  - apply elem_of_list_singleton in Hg as ->. rewrite H in Hh. injection Hh as <-. done.
  - apply elem_of_list_singleton in Hg as ->. rewrite H in Hh. injection Hh as <-. done.
  - apply elem_of_cons in Hg as [->|Hg]; [|by apply IH]. rewrite Hz in Hh. injection Hh as <-. done.
  - apply elem_of_cons in Hg as [->|Hg]; [rewrite H in Hh; injection Hh as <-; done|]. destruct (IH Hg Hh Hst) as [_ ?]. done.
  - apply elem_of_cons in Hg as [->|Hg]; [rewrite H in Hh; injection Hh as <-; done|]. destruct (IH Hg Hh Hst) as [_ ?]. done.
Qed.

Lemma rel_wake s P W n w o : rel s P W [] [] -> running P = None -> W !! n = Some w -> ∃ s1, env_step mv dflt (EvFire (th_f w) o) s = Next s1 ∧
  R s1 (wake P n o (th_c w) (ks (th_cs w))).
Proof.
  intros HR Hn Hw. destruct (idle_rel s P) as [Hs Hi]; [by exists W, [], []|done|].
  pose proof HR as [A1 A2 A3 A4 A5 A6 A7 [A8 A8'] A9]. destruct (A2 n w Hw) as (Hb & HF & HT & Htk).
  destruct (below_status _ _ _ _ _ _ _ Hb) as (fr & Hfr & Hst & _). pose proof (below_in _ _ _ _ _ _ _ Hb) as Hin.
  eexists. split; [unfold env_step, is_idle; rewrite Hi, Hfr, Hst; reflexivity|].
  assert (Hh : ∀ g, g ∉ th_F w -> alter (fr_status Running) (th_f w) (heap s) !! g = heap s !! g). { intros g Hg. apply lookup_alter_ne. by intros <-. }
  exists (delete n W), (th_F w), (th_T w). split; cbn [waiting running log tickets wake].
  - by rewrite A1, fmap_delete.
  - intros m w' [Hm Hw']%lookup_delete_Some. destruct (A2 m w' Hw') as (Hb' & ? & ? & ?). destruct (A3 _ _ _ _ Hw' Hw ltac:(done)) as [D1 D2].
    split_and!; try done. eapply below_mono; [exact Hb'| |done]. intros g Hg. apply Hh. by apply D1.
  - intros m m' w1 w2 [? H1]%lookup_delete_Some [? H2]%lookup_delete_Some. by apply A3.
  - intros m w' [Hm Hw']%lookup_delete_Some. by apply (A3 _ _ _ _ Hw' Hw).
  - intros g Hg. cbn in Hg. assert (Hg' : is_Some (heap s !! g)).
    { destruct (decide (g = th_f w)) as [->|?]; [by rewrite Hfr|]. by rewrite lookup_alter_ne in Hg. }
    destruct (A5 g Hg') as [Hlt [?%elem_of_nil|(m & w' & Hw' & ?)]]; [done|]. split; [done|].
    destruct (decide (m = n)) as [->|Hm]; [left; congruence|right; exists m, w'; by rewrite lookup_delete_ne].
  - intros g Hg. cbn in Hg. destruct (A6 g Hg) as [Hlt [?%elem_of_nil|(m & w' & Hw' & ?)]]; [done|]. split; [done|].
    destruct (decide (m = n)) as [->|Hm]; [left; congruence|right; exists m, w'; by rewrite lookup_delete_ne].
  - exists (th_f w), (th_cs w), []. split_and!; try done; [cbn; by rewrite Hs|].
    eapply below_mono; [by apply (below_set _ _ Running _ _ _ _ _ Hb)|done|done].
  - cbn. rewrite Htk. by rewrite A8.
  - intros m [x [? ?]%lookup_delete_Some]. apply A9. by eexists.
Qed.

(** ** Both directions *)
Definition R' (s : state) (P : program V) : Prop :=
  (∃ s', steps s s' ∧ R s' P ∧ seen (trace s) = log P) ∨
  (∃ p s2, running P = None ∧ step s = Next s2 ∧ R s2 (start P p) ∧ seen (trace s) = log P).

Lemma init_rel qs : R (init qs) nothing.
Proof.
  exists ∅, [], []. split; try done; cbn.
  - by rewrite fmap_empty.
  - intros g [x Hx]. rewrite lookup_empty in Hx. done.
  - intros g [x Hx]. rewrite lookup_empty in Hx. done.
  - intros g [x Hx]. rewrite lookup_empty in Hx. done.
Qed.

Lemma seen_app l l' : ∃ l2, seen (l ++ l') = l2 ++ seen (V:=V) l'.
Proof.
  induction l as [|e l [l2 IH]]; [by exists []|]. cbn.
  destruct e; try (exists l2; exact IH).
  - destruct w; [exists l2; exact IH|]. exists (LStart :: l2). by rewrite IH.
  - exists (LWait :: l2). by rewrite IH.
  - destruct (ticket f (l ++ l')); [exists (LWake n o :: l2); by rewrite IH|exists l2; exact IH].
  - destruct o; try (exists l2; exact IH). exists (LObs n :: l2). by rewrite IH.
Qed.
Lemma step_seen s s' : step s = Next s' -> ∃ l, seen (trace s') = l ++ seen (trace s).
Proof. intros H. destruct (exec_trace mv dflt false s s') as [l ->]; [eapply exec_step; [apply exec_refl|done]|]. apply seen_app. Qed.
Lemma steps_seen s s' : steps s s' -> ∃ l, seen (trace s') = l ++ seen (trace s).
Proof.
  induction 1 as [s|s s1 s2 H _ [l IH]]; [by exists []|]. destruct (step_seen _ _ H) as [l' E]. exists (l ++ l'). by rewrite IH, E, app_assoc.
Qed.
Lemma seen_between s s1 s' : step s = Next s1 -> steps s1 s' -> seen (trace s') = seen (trace s) -> seen (trace s1) = seen (trace s).
Proof.
  intros [l E]%step_seen [l' E']%steps_seen E2. rewrite E2, E, app_assoc in E'.
  assert (l' ++ l = []) as [-> ->]%app_nil. { apply (app_inv_tail (seen (trace s))). by rewrite <-E'. } by rewrite E.
Qed.
Lemma R_seen s P : R s P -> seen (trace s) = log P.
Proof. intros (W & F & T & HR). apply (r_log _ _ _ _ _ HR). Qed.

Lemma R'_step s P s' : R' s P -> runs P -> step s = Next s' -> ∃ P', runs P' ∧ R' s' P'.
Proof.
  intros [(s2 & Hst & HR & Hsee)|(p & s2 & Hn & Hst & HR & Hsee)] HP Hs'.
  - inversion Hst as [|? s1 ? H1 H2]; subst.
    + destruct (running P) as [[p k]|] eqn:E.
      * destruct (go P) as [P'|] eqn:Eg; [|unfold go in Eg; rewrite E in Eg; by destruct p].
        destruct (simulate _ _ _ HR Eg) as (s1 & s3 & H1 & H2 & H3 & H4). exists P'. split; [by eapply runs_go|]. left.
        assert (s1 = s') as -> by congruence. by exists s3.
      * destruct (idle_rel _ _ HR E) as [_ ?]. congruence.
    + assert (s1 = s') as -> by (unfold stp in H1; congruence). exists P. split; [done|]. left. exists s2. split_and!; try done.
      rewrite <-Hsee. eapply seen_between; [done|exact H2|]. by rewrite (R_seen _ _ HR).
  - assert (s2 = s') as -> by congruence. exists (start P p). split; [by apply runs_start|]. left. exists s'. split; [done|]. split; [done|by apply R_seen].
Qed.
Lemma R'_idle s P : R' s P -> step s = Idle -> R s P ∧ running P = None.
Proof.
  intros [(s2 & Hst & HR & Hsee)|(p & s2 & Hn & Hst & HR & Hsee)] Hi; [|congruence].
  inversion Hst as [|? s1 ? H1 H2]; subst; [|unfold stp in H1; congruence]. split; [done|].
  destruct (running P) as [[p k]|] eqn:E; [|done]. exfalso.
  destruct (go P) as [P'|] eqn:Eg; [|unfold go in Eg; rewrite E in Eg; by destruct p].
  destruct (simulate _ _ _ HR Eg) as (s1 & s3 & H1 & _). congruence.
Qed.
Lemma R'_defined s P u : R' s P -> step s ≠ UB u.
Proof.
  intros [(s2 & Hst & HR & Hsee)|(p & s2 & Hn & Hst & HR & Hsee)] Hu; [|congruence].
  inversion Hst as [|? s1 ? H1 H2]; subst; [|unfold stp in H1; congruence].
  destruct (running P) as [[p k]|] eqn:E.
  - destruct (go P) as [P'|] eqn:Eg; [|unfold go in Eg; rewrite E in Eg; by destruct p].
    destruct (simulate _ _ _ HR Eg) as (s1 & s3 & H1 & _). congruence.
  - destruct (idle_rel _ _ HR E) as [_ ?]. congruence.
Qed.

Lemma env_idle e s s' : env_step mv dflt e s = Next s' -> step s = Idle.
Proof. unfold env_step, is_idle. by destruct (step s). Qed.

Lemma sound s : execs mv dflt s -> ∃ P, runs P ∧ R' s P.
Proof.
  induction 1 as [qs|s s' H (P & HP & HR) Hs|s p s' H (P & HP & HR) Hs|s f o s' H (P & HP & HR) Hs].
  - exists nothing. split; [constructor|]. left. exists (init qs). split; [done|]. split; [apply init_rel|done].
  - by eapply R'_step.
  - destruct (R'_idle _ _ HR (env_idle _ _ _ Hs)) as [HR0 Hn]. destruct (simulate_start _ _ p HR0 Hn) as (s1 & s2 & H1 & H2 & H3 & H4).
    assert (s1 = s') as -> by congruence. exists P. split; [done|]. right. by exists p, s2.
  - destruct (R'_idle _ _ HR (env_idle _ _ _ Hs)) as [HR0 Hn]. destruct HR0 as (W & F & T & HR0).
    pose proof (r_run _ _ _ _ _ HR0) as Hrun. rewrite Hn in Hrun. destruct Hrun as (_ & -> & ->).
    pose proof Hs as Hs2. unfold env_step, is_idle in Hs2. rewrite (env_idle _ _ _ Hs) in Hs2.
    destruct (heap s !! f) as [fr|] eqn:Ef; [destruct (fstatus fr) eqn:Est|].
    all: try (injection Hs2 as <-; exists P; done).
    destruct (r_heap _ _ _ _ _ HR0 f ltac:(by eexists)) as [_ [?%elem_of_nil|(n & w & Hw & Hin)]]; [done|].
    destruct (r_thr _ _ _ _ _ HR0 n w Hw) as (Hb & _). destruct (below_leaf _ _ _ _ _ _ _ _ _ _ Hb Hin Ef Est) as [-> _].
    destruct (rel_wake s P W n w o HR0 Hn Hw) as (s1 & Hs1 & HR1). assert (s1 = s') as -> by congruence.
    exists (wake P n o (th_c w) (ks (th_cs w))). split.
    + apply runs_wake; [done|done|]. by rewrite (r_wait _ _ _ _ _ HR0), lookup_fmap, Hw.
    + left. exists s'. split; [done|]. split; [done|]. by apply R_seen.
Qed.

Lemma execs_steps s s' : execs mv dflt s -> steps s s' -> execs mv dflt s'.
Proof. intros H Hst. induction Hst as [s|s s1 s2 H1 H2 IH]; [done|]. apply IH. by eapply execs_step. Qed.

Lemma complete P : runs P -> ∃ s, execs mv dflt s ∧ R s P.
Proof.
  induction 1 as [|P P' HP (s & Hs & HR) Hgo|P p HP (s & Hs & HR) Hn|P n o c k HP (s & Hs & HR) Hn Hw].
  - exists (init ∅). split; [constructor|apply init_rel].
  - destruct (simulate _ _ _ HR Hgo) as (s1 & s2 & H1 & H2 & H3 & _). exists s2. split; [|done]. eapply execs_steps; [|exact H2]. by eapply execs_step.
  - destruct (simulate_start _ _ p HR Hn) as (s1 & s2 & H1 & H2 & H3 & _). exists s2. split; [|done]. eapply execs_step; [|done]. by eapply execs_start.
  - destruct HR as (W & F & T & HR). pose proof (r_run _ _ _ _ _ HR) as Hrun. rewrite Hn in Hrun. destruct Hrun as (_ & -> & ->).
    rewrite (r_wait _ _ _ _ _ HR), lookup_fmap in Hw. destruct (W !! n) as [w|] eqn:Ew; [|done]. injection Hw as <- <-.
    destruct (rel_wake s P W n w o HR Hn Ew) as (s1 & Hs1 & HR1). exists s1. split; [by eapply execs_fire|done].
Qed.

(** Nothing is left over. *)
Lemma no_leak s P : R s P -> running P = None -> waiting P = ∅ -> heap s = ∅ ∧ objs s = ∅.
Proof.
  intros (W & F & T & HR) Hn Hw. pose proof HR as [A1 A2 A3 A4 A5 A6 A7 A8 A9]. rewrite Hn in A7. destruct A7 as (_ & -> & ->).
  assert (W = ∅) as ->. { rewrite Hw in A1. symmetry in A1. by apply fmap_empty_inv in A1. }
  split; apply map_empty; intros g.
  - destruct (heap s !! g) eqn:E; [|done]. destruct (A5 g ltac:(by eexists)) as [_ [?%elem_of_nil|(n & w & ? & _)]]; [done|]. by rewrite lookup_empty in *.
  - destruct (objs s !! g) eqn:E; [|done]. destruct (A6 g ltac:(by eexists)) as [_ [?%elem_of_nil|(n & w & ? & _)]]; [done|]. by rewrite lookup_empty in *.
Qed.
End sim.
