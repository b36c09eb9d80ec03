(** * C110, C111: the macros for tests in coroutines. The model is TestModel.v, the vocabulary TestSpec.v. *)
From stdpp Require Import list option.
From Verif Require Import TestModel TestSpec.

(** Programs that use the macros, or are about to finish one. *)
CoInductive good : tprog -> Prop :=
  | G_end : good PEnd
  | G_ret : good PRet
  | G_throw e : good (PThrow e)
  | G_eff n k : (∀ a, good (k a)) -> good (PEff n k)
  | G_seq p k : good p -> good k -> good (PSeq p k)
  | G_try p h k : good p -> (∀ e, good (h e)) -> good k -> good (PTry p h k)
  | G_check b k : good (k true) -> k false = PRet -> good (PQt (QVerify b) k)
  | G_expect here m k : good (k true) -> k false = PRet -> good (PQt (QExpectFail here m) k)
  | G_stop c k : c = QFail ∨ c = QSkip -> (∀ b, k b = PRet) -> good (PQt c k).
Lemma good_fail : good qcoro_fail.
Proof. apply G_stop; [by left|done]. Qed.
Lemma macros_good p : macros p -> good p.
Proof.
  revert p. cofix IH. intros p Hp. destruct Hp as [| |e|n k H|p k H1 H2|p h k H1 H2 H3|b k H|b k H| | |here m k H|ty body k H1 H2].
  - apply G_end.
  - apply G_ret.
  - apply G_throw.
  - apply G_eff. intros a. apply IH, H.
  - apply G_seq; apply IH; done.
  - apply G_try; [apply IH, H1|intros e; apply IH, H2|apply IH, H3].
  - apply G_check; [apply IH, H|reflexivity].
  - destruct b; apply G_check; [apply IH, H|reflexivity|apply IH, H|reflexivity].
  - apply G_stop; [left; reflexivity|reflexivity].
  - apply G_stop; [right; reflexivity|reflexivity].
  - apply G_expect; [apply IH, H|reflexivity].
  - apply G_try; [|intros e; apply G_stop; [left; reflexivity|reflexivity]|apply IH, H2].
    apply G_try; [|intros e; destruct (ty e); [apply G_end|apply G_throw]|apply G_end].
    apply G_seq; [apply IH, H1|apply G_stop; [left; reflexivity|reflexivity]].
Qed.
Definition good_frame (f : tframe) : Prop := match f with FSeq k => good k | FTry h k => (∀ e, good (h e)) ∧ good k end.

Definition free (tr : list tev) : Prop := ∀ t2 e t1, tr = t2 ++ e :: t1 -> ¬ stops e t1.
Lemma free_nil : free [].
Proof. by intros [|? ?] ? ?. Qed.
Lemma free_cons e tr : free tr -> ¬ stops e tr -> free (e :: tr).
Proof. intros H Hn [|x t2] e' t1 [= -> Ht]; [by rewrite <- Ht|]. by eapply H. Qed.
(** Invariant: nothing has stopped the function; or the last event did, and it is about to return; or it has ended. *)
Definition tinv (s : tst) : Prop :=
  t_exp s = expected (t_tr s) ∧
  ((∃ p, t_cur s = Some p ∧ good p ∧ Forall good_frame (t_fr s) ∧ free (t_tr s)) ∨
   (∃ e t1, t_cur s = Some PRet ∧ t_tr s = e :: t1 ∧ free t1) ∨
   (t_cur s = None ∧ ∃ e t1, (t_tr s = e :: t1 ∨ t_tr s = TReturn :: e :: t1) ∧ free t1)).
Lemma tinv_step a s s' : tinv s -> tstep a s = Some s' -> tinv s'.
Proof.
  intros [Hx [(p & Hc & Hg & Hf & Hfr)|[(e & t1 & Hc & Ht & Hfr)|(Hc & _)]]] Hs; unfold tstep in Hs; rewrite Hc in Hs; [| |done].
  - destruct Hg as [| |e|n k H|p k H1 H2|p h k H1 H2 H3|b k H1 H2|here m k H1 H2|c k Hc1 H].
    + destruct (t_fr s) as [|[k|h k] fr] eqn:Ef; injection Hs as <-; (split; [done|]); cbn.
      * right. right. split; [done|]. exists TReturn, (t_tr s). auto.
      * left. exists k. apply Forall_cons_1 in Hf as [? ?]. done.
      * left. exists k. apply Forall_cons_1 in Hf as [[? ?] ?]. done.
    + injection Hs as <-. split; [done|]. right. right. split; [done|]. exists TReturn, (t_tr s). auto.
    + destruct (t_fr s) as [|[k|h k] fr] eqn:Ef; injection Hs as <-; (split; [done|]); cbn.
      * right. right. split; [done|]. exists (TUncaught e), (t_tr s). auto.
      * left. exists (PThrow e). apply Forall_cons_1 in Hf as [? ?]. split; [done|]. split; [constructor|done].
      * left. exists (h e). apply Forall_cons_1 in Hf as [[? ?] ?]. split; [done|]. split; [done|]. split; [by constructor|done].
    + injection Hs as <-. split; [done|]. left. exists (k a). split; [done|]. split; [done|]. split; [done|]. apply free_cons; [done|]. intros [].
    + injection Hs as <-. split; [done|]. left. exists p. split; [done|]. split; [done|]. split; [by constructor|done].
    + injection Hs as <-. split; [done|]. left. exists p. split; [done|]. split; [done|]. split; [by constructor|done].
    + cbn in Hs. rewrite Hx in Hs. destruct (check b (expected (t_tr s))) as [e ok] eqn:E. injection Hs as <-. cbn. split; [by destruct b, (expected (t_tr s)) as [[]|]; injection E as <- <-|].
      destruct ok.
      * left. exists (k true). split; [done|]. split; [done|]. split; [done|]. apply free_cons; [done|]. destruct b, (expected (t_tr s)) as [[]|] eqn:Em; injection E as <-; cbn; rewrite ?Em; try done; by intros ?.
      * right. left. exists e, (t_tr s). rewrite H2. done.
    + cbn in Hs. rewrite Hx in Hs. destruct here; [destruct (expected (t_tr s)) as [m'|] eqn:Em|]; injection Hs as <-; cbn; (split; [done|]).
      * right. left. exists TFail, (t_tr s). rewrite H2. done.
      * left. exists (k true). split; [done|]. split; [done|]. split; [done|]. apply free_cons; [done|]. intros [].
      * left. exists (k true). done.
    + destruct Hc1 as [-> | ->]; cbn in Hs.
      * rewrite Hx in Hs. injection Hs as <-. cbn. split; [by destruct (expected (t_tr s)) as [[]|]|]. right. left. rewrite H. eexists _, _. done.
      * injection Hs as <-. cbn. split; [done|]. right. left. rewrite H. eexists _, _. done.
  - injection Hs as <-. cbn. split; [done|]. right. right. split; [done|]. exists e, t1. split; [right; by rewrite Ht|done].
Qed.
Lemma tinv_steps s s' : tinv s -> tsteps s s' -> tinv s'.
Proof. intros Hi Hs. induction Hs as [|s s1 s2 a Hp Hs IH]; [done|]. apply IH. by eapply tinv_step. Qed.
Lemma tinv_0 p : macros p -> tinv (test0 p).
Proof. intros Hp. split; [done|]. left. exists p. split; [done|]. split; [by apply macros_good|]. split; [constructor|apply free_nil]. Qed.
Lemma free_in tr t2 e t1 : free tr -> tr = t2 ++ e :: t1 -> stops e t1 -> False.
Proof. intros H Ht Hs. by apply (H _ _ _ Ht). Qed.

(** ** C110: a test function that uses the macros does nothing after a failed check *)
Theorem C110_stops p s t2 e t1 : macros p -> tsteps (test0 p) s -> t_tr s = t2 ++ e :: t1 -> stops e t1 -> t2 = [] ∨ t2 = [TReturn].
Proof.
  intros Hp Hs Ht He. destruct (tinv_steps _ _ (tinv_0 p Hp) Hs) as [_ [(q & _ & _ & _ & Hf)|[(e' & u & _ & Hu & Hf)|(_ & e' & u & Hu & Hf)]]].
  - by destruct (Hf _ _ _ Ht).
  - left. destruct t2 as [|x t2]; [done|]. rewrite Hu in Ht. injection Ht as _ Ht. by destruct (Hf _ _ _ Ht).
  - destruct Hu as [Hu|Hu]; rewrite Hu in Ht.
    + left. destruct t2 as [|x t2]; [done|]. injection Ht as _ Ht. by destruct (Hf _ _ _ Ht).
    + destruct t2 as [|x [|y t2]]; [by left|injection Ht as -> _; by right|]. injection Ht as _ _ Ht. by destruct (Hf _ _ _ Ht).
Qed.
(** ... it then returns, in one step. *)
Theorem C110_returns p s e t1 q : macros p -> tsteps (test0 p) s -> t_tr s = e :: t1 -> stops e t1 -> t_cur s = Some q ->
  ∀ a, tstep a s = Some (Tst None [] (t_exp s) (TReturn :: t_tr s)).
Proof.
  intros Hp Hs Ht He Hq a. destruct (tinv_steps _ _ (tinv_0 p Hp) Hs) as [_ [(q' & _ & _ & _ & Hf)|[(e' & u & Hc & Hu & Hf)|(Hc & _)]]].
  - by destruct (Hf [] e t1 Ht).
  - unfold tstep. by rewrite Hc.
  - congruence.
Qed.
(** What a check reports, and when it lets the function go on: iff it passes and no failure is expected, or one is expected in mode Continue. *)
Theorem C110_check p s b k : macros p -> tsteps (test0 p) s -> t_cur s = Some (qcoro_verify b k) ∨ t_cur s = Some (qcoro_verify2 b k) ->
  ∃ s' e, tsteps s s' ∧ t_tr s' = e :: t_tr s ∧ t_fr s' = t_fr s ∧
    match expected (t_tr s) with
    | None => e = (if b then TPass else TFail) ∧ t_cur s' = Some (if b then k else PRet)
    | Some m => e = (if b then TXPass else TXFail) ∧ t_cur s' = Some match m with Continue => k | Abort => PRet end
    end.
Proof.
  intros Hp Hs Hc. destruct (tinv_steps _ _ (tinv_0 p Hp) Hs) as [Hx _].
  exists (Tst (Some (if (check b (t_exp s)).2 then k else PRet)) (t_fr s) None ((check b (t_exp s)).1 :: t_tr s)), (check b (t_exp s)).1.
  split; [|split; [done|]; split; [done|]; rewrite Hx; by destruct (expected (t_tr s)) as [[]|], b].
  eapply (tsteps_S _ _ _ 0); [|apply tsteps_0]. unfold tstep. destruct Hc as [-> | ->]; [done|]. by destruct b.
Qed.
Theorem C110_fail_skip p s : macros p -> tsteps (test0 p) s ->
  (t_cur s = Some qcoro_fail -> ∃ s', tsteps s s' ∧ t_cur s' = None ∧ t_tr s' = TReturn :: (if expected (t_tr s) then TXFail else TFail) :: t_tr s) ∧
  (t_cur s = Some qcoro_skip -> ∃ s', tsteps s s' ∧ t_cur s' = None ∧ t_tr s' = TReturn :: TSkip :: t_tr s).
Proof.
  intros Hp Hs. destruct (tinv_steps _ _ (tinv_0 p Hp) Hs) as [Hx _]. split; intros Hc.
  - eexists. split; [eapply (tsteps_S _ _ _ 0); [unfold tstep; rewrite Hc; reflexivity|]; eapply (tsteps_S _ _ _ 0); [reflexivity|apply tsteps_0]|]. split; [done|]. cbn. rewrite Hx. by destruct (expected (t_tr s)) as [[]|].
  - eexists. split; [eapply (tsteps_S _ _ _ 0); [unfold tstep; rewrite Hc; reflexivity|]; eapply (tsteps_S _ _ _ 0); [reflexivity|apply tsteps_0]|]. done.
Qed.

(** ** C111: QCORO_VERIFY_THROWS_EXCEPTION passes iff the statement throws an exception of this type *)
Lemma tsteps_trans s s1 s2 : tsteps s s1 -> tsteps s1 s2 -> tsteps s s2.
Proof. induction 1; [done|]. intros. econstructor; eauto. Qed.
Lemma tstep_frame a p fr x tr s' F : tstep a (Tst (Some p) fr x tr) = Some s' -> t_cur s' ≠ None ->
  tstep a (Tst (Some p) (fr ++ F) x tr) = Some (Tst (t_cur s') (t_fr s' ++ F) (t_exp s') (t_tr s')).
Proof.
  intros Hs Hn. unfold tstep in *. cbn in *. destruct p as [| |e|n k|c k|p k|p h k]; try (injection Hs as <-; done).
  - destruct fr as [|[k|h k] fr]; injection Hs as <-; done.
  - destruct fr as [|[k|h k] fr]; injection Hs as <-; done.
  - destruct (qtest c x) as [[es b] x']. by injection Hs as <-.
Qed.
Lemma tsteps_frame s s' F : tsteps s s' -> ∀ q, t_cur s' = Some q -> tsteps (Tst (t_cur s) (t_fr s ++ F) (t_exp s) (t_tr s)) (Tst (Some q) (t_fr s' ++ F) (t_exp s') (t_tr s')).
Proof.
  induction 1 as [s|s s1 s2 a Hp Hs IH]; intros q Hq; [rewrite Hq; constructor|]. specialize (IH q Hq).
  assert (t_cur s1 ≠ None) as Hn. { intros Hn. inversion Hs as [|? ? ? ? Hp']; subst; [congruence|]. unfold tstep in Hp'. by rewrite Hn in Hp'. }
  destruct s as [[p|] fr x tr]; [|done]. cbn in *. eapply tsteps_S; [by apply (tstep_frame a p fr x tr s1 F)|]. done.
Qed.
Lemma ends_frame p x tr o x' tr' F : ends p x tr o x' tr' ->
  tsteps (Tst (Some p) F x tr) (Tst (Some match o with ONormal => PEnd | OThrow e => PThrow e | OReturn => PRet end) F x' tr').
Proof. intros H. by apply (tsteps_frame _ _ F H _ eq_refl). Qed.
Ltac tgo := eapply (tsteps_S _ _ _ 0); [reflexivity|]; cbn.
Theorem C111_throws ty body k F x tr o x' tr' : ends body x tr o x' tr' ->
  match o with
  | OThrow e => if ty e then tsteps (Tst (Some (qcoro_throws ty body k)) F x tr) (Tst (Some k) F x' tr')
                else ∃ v, v = (if x' then TXFail else TFail) ∧ tsteps (Tst (Some (qcoro_throws ty body k)) F x tr) (Tst None [] None (TReturn :: v :: tr'))
  | ONormal => ∃ v, v = (if x' then TXFail else TFail) ∧ tsteps (Tst (Some (qcoro_throws ty body k)) F x tr) (Tst None [] None (TReturn :: v :: tr'))
  | OReturn => tsteps (Tst (Some (qcoro_throws ty body k)) F x tr) (Tst None [] x' (TReturn :: tr'))
  end.
Proof.
  intros H. assert (tsteps (Tst (Some (qcoro_throws ty body k)) F x tr)
    (Tst (Some match o with ONormal => PEnd | OThrow e => PThrow e | OReturn => PRet end) (FSeq qcoro_fail :: FTry (λ e, if ty e then PEnd else PThrow e) PEnd :: FTry (λ _, qcoro_fail) k :: F) x' tr')) as Hb.
  { tgo. tgo. tgo. by apply ends_frame. }
  destruct o as [|e|].
  - eexists. split; [reflexivity|]. eapply tsteps_trans; [exact Hb|]. do 3 tgo. destruct x' as [[]|]; apply tsteps_0.
  - destruct (ty e) eqn:E.
    + eapply tsteps_trans; [exact Hb|]. do 2 tgo. cbv beta. rewrite E. do 2 tgo. apply tsteps_0.
    + eexists. split; [reflexivity|]. eapply tsteps_trans; [exact Hb|]. do 2 tgo. cbv beta. rewrite E. do 4 tgo. destruct x' as [[]|]; apply tsteps_0.
  - eapply tsteps_trans; [exact Hb|]. tgo. apply tsteps_0.
Qed.
Print Assumptions C110_stops.
Print Assumptions C110_returns.
Print Assumptions C110_check.
Print Assumptions C110_fail_skip.
Print Assumptions C111_throws.
(** A test function: an expected failure, in mode Continue; an exception that is thrown as expected; a check that fails, so that the last effect does not happen. *)
Definition test_prog : tprog :=
  qcoro_expect_fail true Continue (qcoro_verify false (qcoro_throws (λ e, bool_decide (e = 3)) (PEff 1 (λ a, PThrow a)) (PEff 2 (λ a, qcoro_verify (bool_decide (a = 0)) (PEff 3 (λ _, PEnd)))))).
Lemma test_prog_macros : macros test_prog.
Proof. apply M_expect, M_verify, M_throws; [apply M_eff; intros; apply M_throw|]. apply M_eff. intros. apply M_verify, M_eff. intros. apply M_end. Qed.
Lemma tplay_steps l s : tsteps s (tplay l s).
Proof. revert s. induction l as [|a l IH]; intros s; [constructor|]. cbn. destruct (tstep a s) eqn:E; [|constructor]. econstructor; eauto. Qed.
Definition test_run : tst := tplay (replicate 5 0 ++ [3] ++ replicate 4 0 ++ [7] ++ replicate 3 0) (test0 test_prog).
Example ex_C110 : macros test_prog ∧ tsteps (test0 test_prog) test_run ∧ t_tr test_run = [TReturn] ++ TFail :: [TEff 2 7; TEff 1 3; TXFail; TExpect Continue] ∧
  stops TFail [TEff 2 7; TEff 1 3; TXFail; TExpect Continue].
Proof. split_and!; [apply test_prog_macros|apply tplay_steps|vm_compute; reflexivity|done]. Qed.
Example ex_C110_more : (∃ s, tsteps (test0 qcoro_fail) s ∧ macros qcoro_fail ∧ t_cur s = Some qcoro_fail) ∧
  ∃ s, tsteps (test0 test_prog) s ∧ t_tr s = [TFail] ++ [TEff 2 7; TEff 1 3; TXFail; TExpect Continue] ∧ t_cur s = Some PRet.
Proof.
  split; [exists (test0 qcoro_fail); split_and!; [constructor|constructor|done]|].
  exists (tplay (replicate 5 0 ++ [3] ++ replicate 4 0 ++ [7] ++ replicate 1 0) (test0 test_prog)). split; [apply tplay_steps|]. split; vm_compute; reflexivity.
Qed.
(** The statement [PEff 1 (throw the answer)] throws 3; [PEff 1 (end)] does not throw. *)
Example ex_C111 : ends (PEff 1 PThrow) None [] (OThrow 3) None [TEff 1 3] ∧ ends (PEff 1 (λ _, PEnd)) None [] ONormal None [TEff 1 3] ∧ ends (qcoro_verify false PEnd) None [] OReturn None [TFail].
Proof. split_and!; (eapply (tsteps_S _ _ _ 3); [reflexivity|apply tsteps_0]). Qed.
