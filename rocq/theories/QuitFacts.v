(** * waitFor() whose event loop is quit from outside *)
From stdpp Require Import gmap list.
From Verif Require Import TaskModel TaskInv TaskSafe TaskView TaskSpec TaskTrace TaskWalk TaskLegal TaskMore
  TaskAlive TaskCtx TaskFacts TaskLoop TaskParams TaskFacts2 ConnectFacts.

Section facts.
Context {V : Type} (mv : V -> V) (dflt : V).
Notation state := (state V). Notation item := (item V). Notation event := (event V).
Notation step := (step mv dflt). Notation env_step := (env_step mv dflt). Notation reach := (reach mv dflt). Notation steps := (steps mv dflt).
Notation astep := (astep mv dflt).

(** A context is alive iff its waitFor() was called and has not returned. *)
Definition called (i : nat) (tr : list event) : Prop := ∃ w f h, EWaitCall w i f h ∈ tr.
Definition returned (i : nat) (tr : list event) : Prop := ∃ w o, EWaitRet w i o ∈ tr.
Record CX (s : state) : Prop := {
  cx_iff : ∀ i, is_Some (ctxs s !! i) <-> called i (trace s) ∧ ¬ returned i (trace s);
  cx_bnd : ∀ i, called i (trace s) ∨ returned i (trace s) -> i < nc s;
}.
Lemma called_cons i e tr : called i (e :: tr) <-> (∃ w f h, e = EWaitCall w i f h) ∨ called i tr.
Proof. unfold called. setoid_rewrite elem_of_cons. naive_solver. Qed.
Lemma returned_cons i e tr : returned i (e :: tr) <-> (∃ w o, e = EWaitRet w i o) ∨ returned i tr.
Proof. unfold returned. setoid_rewrite elem_of_cons. naive_solver. Qed.
Lemma returned_em i tr : returned i tr ∨ ¬ returned i tr.
Proof.
  induction tr as [|e tr IH]; [right; by intros (?&?&?%elem_of_nil)|]. rewrite returned_cons. destruct IH as [?|?]; [by left; right|].
  destruct e; try (right; intros [(?&?&?)|?]; done). destruct (decide (c = i)) as [->|]; [left; left; eauto|]. right. intros [(?&?&?)|?]; [congruence|done].
Qed.
Lemma cx_calm s s' es : CX s -> trace s' = es ++ trace s -> Forall calm es -> nc s' = nc s -> (∀ i, is_Some (ctxs s' !! i) <-> is_Some (ctxs s !! i)) -> CX s'.
Proof.
  intros [H1 H2] Ht Hc Hn Hx.
  assert (He : ∀ i, (called i (trace s') <-> called i (trace s)) ∧ (returned i (trace s') <-> returned i (trace s))).
  { intros i. rewrite Ht. clear H1 H2 Ht Hn Hx. induction Hc as [|e es He _ IH]; [done|]. cbn. rewrite called_cons, returned_cons. destruct IH as [-> ->].
    split; split; [intros [(?&?&?&->)|?]|auto|intros [(?&?&->)|?]|auto]; done. }
  split; intros i; destruct (He i) as [E1 E2]; rewrite E1, E2; [rewrite Hx; apply H1|rewrite Hn; apply H2].
Qed.
Lemma cx_ret s s' w i o : CX s -> trace s' = EWaitRet w i o :: trace s -> nc s' = nc s -> ctxs s' = delete i (ctxs s) -> is_Some (ctxs s !! i) -> CX s'.
Proof.
  intros [H1 H2] Ht Hn Hx Hi. split; intros j; rewrite Ht, called_cons, returned_cons.
  - rewrite Hx, lookup_delete_is_Some, H1. split.
    + intros (Hne & Hc & Hr). split; [by right|]. intros [(?&?&?)|?]; [congruence|done].
    + intros [[(?&?&?&?)|Hc] Hr]; [done|]. split_and!; [|done|tauto]. intros ->. apply Hr. left. eauto.
  - rewrite Hn. intros [[(?&?&?&?)|?]|[(?&?&?)|?]]; [done|auto| |auto]. simplify_eq. apply H2. left. by apply H1.
Qed.

Lemma cx_step q s s' : K q s -> CX s -> astep q s s' -> CX s'.
Proof.
  intros HK HC Ha. destruct Ha as
    [s w p st e p' Hst He|s w qq c st Hst|s w qq p st Hst|s w ps b c st t ps' Hst Hn|s w ps b c st t ps' Hst Hn
    |s w vd x c st hd Hst Hn Hx|s n v st Hst|s f p o st fr Hst Hp Hf Hs Hni|s f i o st fr Hst Hi Hf Hs Hni|s f c k st Hst Hk
    |s f c h k st fr o Hst Hk Hf Hfi Hr|s f c h k st fr Hst Hk Hf Hfi Hkd|s f c h k st fr p Hst Hk Hne Hf Hfi Hkd|s f c st Hst
    |s h a l st fa k fh o Hst Hni Hf Hs Hh Hfi Hr Hne|s h st Hst Hni|s h fr Hf Hfi Hni|s w vd x i c st Hst Hi|s w vd x i ent c st o Hst Hi
    |s p Hid|s f fr c o Hid Hf Hs|s qq Hid|s w x i ent c st Hq Hst].
  all: try by (first [eapply (cx_calm _ _ []); [exact HC|done| |done|done]; by constructor
     | eapply (cx_calm _ _ [_]); [exact HC|done| |done|done]; by repeat constructor
     | eapply (cx_calm _ _ [_;_]); [exact HC|done| |done|done]; by repeat constructor
     | eapply (cx_calm _ _ [_;_;_]); [exact HC|done| |done|done]; by repeat constructor]).
  - eapply (cx_calm _ _ [_]); [exact HC|done| |done|done]. constructor; [|constructor]. by inversion He.
  - destruct HC as [H1 H2]. split; intros i; cbn; rewrite !called_cons, !returned_cons.
    + rewrite lookup_insert_is_Some, H1. destruct (decide (nc s = i)) as [<-|Hne].
      * split; [|by left]. intros _. split; [right; right; left; eauto|]. intros [(?&?&?)|[(?&?&?)|[(?&?&?)|Hr]]]; try done.
        specialize (H2 (nc s) (or_intror Hr)). lia.
      * naive_solver.
    + intros [[(?&?&?&?)|[(?&?&?&?)|[(?&?&?&?)|?]]]|[(?&?&?)|[(?&?&?)|[(?&?&?)|?]]]]; simplify_eq; try lia.
      all: assert (i < nc s) by (apply H2; auto); lia.
  - eapply (cx_calm _ _ [_]); [exact HC|done|by repeat constructor|done|]. intros j. cbn. rewrite lookup_insert_is_Some. destruct (decide (i = j)) as [<-|]; naive_solver.
  - eapply cx_ret; [exact HC|done..|]. rewrite Hi. eauto.
  - eapply cx_ret; [exact HC|done..|]. unfold K in HK. rewrite Hst in HK. apply (k_loop _ _ _ _ _ _ _ HK w i). rewrite loops_cons. left.
Qed.
Lemma cx_reach q s : reach q s -> CX s.
Proof.
  intros H. assert (R mv (view s) ∧ K q (view s) ∧ CX (view s)) as (_ & _ & HC).
  { revert s H. apply (view_invariant mv dflt q (λ s, R mv s ∧ K q s ∧ CX s)).
    - intros qs. split_and!; [apply r_init|apply k_init|]. split; intros i; cbn.
      + split; [intros [x Hx]; by rewrite lookup_empty in Hx|]. intros [(?&?&?&?%elem_of_nil) _]. done.
      + intros [(?&?&?&?%elem_of_nil)|(?&?&?%elem_of_nil)]; done.
    - intros s1 s2 (H1 & H2 & H3) Hs. split_and!; [by eapply r_step|by eapply k_step|by eapply cx_step]. }
  destruct HC as [H1 H2]. by split.
Qed.

(** ** The step after a wake-up *)
Definition wset (it : item) : Prop := match it with Run _ (CWaitSet _ _) | Run _ (CWaitStart _ _ _) => True | _ => False end.
Definition clean (st : list item) : Prop := Forall (λ it, ¬ wset it) st.
Definition T (s : state) : Prop :=
  clean (stack s) ∨ ∃ f h i o st l, stack s = Run (Co f) (CWaitSet i o) :: st ∧ clean st ∧
    (trace s = EWake f h o :: l ∨ ∃ w, (w, i) ∈ loops st).
Definition WK (s : state) : Prop := ∀ f h o l, trace s = EWake f h o :: l -> ∃ k st, stack s = Run (Co f) (kapply k o) :: st.
(** [G s s']: something other than a wake-up was recorded. *)
Definition nowake (e : event) : Prop := match e with EWake _ _ _ => False | _ => True end.
Definition G (s s' : state) : Prop := ∃ e es, trace s' = e :: es ++ trace s ∧ nowake e.
Definition G0 (s s' : state) : Prop := trace s' = trace s ∨ G s s'.
Lemma G_of e es s s' : trace s' = e :: es ++ trace s -> nowake e -> G s s'.
Proof. intros. by exists e, es. Qed.
Lemma G_trans0 s1 s2 s3 : G s1 s2 -> G0 s2 s3 -> G s1 s3.
Proof. intros (e & es & E & N) [E2|(e2 & es2 & E2 & N2)]; [exists e, es; by rewrite E2|]. exists e2, (es2 ++ e :: es). rewrite E2, E, <-app_assoc. done. Qed.
Lemma deref_G h (s s' : state) : deref h s = Next s' -> G0 s s'.
Proof. unfold deref. intros H. repeat (case_match; simplify_eq; try done); [right; by apply (G_of (EDestroy h) [])|by left]. Qed.
Lemma drop_G x (s s' : state) : drop_obj x s = Next s' -> G0 s s'.
Proof. unfold drop_obj. intros H. repeat (case_match; simplify_eq; try done); [by apply deref_G in H|by left]. Qed.
Lemma finish_G f o (s s' : state) : finish f o s = Next s' -> G s s'.
Proof. unfold finish. intros H. repeat (case_match; simplify_eq; try done). by apply (G_of (EFinish f o) []). Qed.
Lemma await_G f x k (s s' : state) : do_await mv f x k s = Next s' -> G s s'.
Proof.
  unfold do_await. intros H. repeat (case_match; simplify_eq; try done).
  all: try (by apply (G_of (EHang f) [])).
  all: try (by eapply (G_of (EWait _ _) [])).
  all: try (by eapply (G_of (EStart _) [_])).
  match goal with E : take_result _ _ _ = _ |- _ => apply take_trace in E end. eapply (G_of (ENow _ _ _) []); [cbn; by f_equal|done].
Qed.
Lemma user_G w p (s s' : state) : step_user mv w p s = Next s' -> G s s' ∨ ∃ n, w = Plain n ∧ trace s' = trace s.
Proof.
  destruct p; cbn; intros H; repeat (case_match; simplify_eq; try done); simplify_eq.
  all: try (left; by apply finish_G in H).
  all: try (left; by apply await_G in H).
  all: try (by right; eauto).
  all: left.
  all: try (by eapply (G_of _ []); [reflexivity|]).
  all: try (by eapply (G_of _ [_]); [reflexivity|]).
  all: try (by eapply (G_of _ [_; _]); [reflexivity|]).
  - apply deref_G in H. eapply G_trans0; [|exact H]. by eapply (G_of _ []).
  - apply drop_G in H. eapply G_trans0; [|exact H]. by eapply (G_of _ []).
  - apply await_G in H. destruct H as (e & es & E & N). cbn in E. eapply (G_of e (es ++ [_; _; _])); [rewrite E, <-app_assoc; done|done].
Qed.

Lemma clean_cons it st : ¬ wset it -> clean st -> clean (it :: st).
Proof. by constructor. Qed.
Ltac cl := repeat (apply clean_cons; [by intros []|]); done.
Lemma deref_clean h (s s' : state) : deref h s = Next s' -> clean (stack s) -> clean (stack s').
Proof. unfold deref. intros H. repeat (case_match; simplify_eq; try done). intros ?. cbn. cl. Qed.
Lemma drop_clean x (s s' : state) : drop_obj x s = Next s' -> clean (stack s) -> clean (stack s').
Proof. unfold drop_obj. intros H. repeat (case_match; simplify_eq; try done). intros ?. by eapply deref_clean; [exact H|]. Qed.
Lemma finish_clean f o (s s' : state) : finish f o s = Next s' -> clean (stack s) -> clean (stack s').
Proof. unfold finish. intros H. repeat (case_match; simplify_eq; try done). intros ?. cbn. cl. Qed.
Lemma take_stack h (s : state) o s1 : take_result mv h s = (o, s1) -> stack s1 = stack s.
Proof. unfold take_result. intros H. repeat (case_match; simplify_eq; try done). Qed.
Lemma await_T f x k (s s' : state) : do_await mv f x k s = Next s' -> clean (stack s) -> (∀ i, k = KWait i -> ∃ w, (w, i) ∈ loops (stack s)) -> T s'.
Proof.
  unfold do_await. intros H Hc Hk. repeat (case_match; simplify_eq; try done).
  all: try (left; cbn; cl).
  match goal with E : take_result _ _ _ = _ |- _ => pose proof (take_stack _ _ _ _ E) as Es; pose proof (take_trace mv _ _ _ _ E) as Et end.
  destruct k as [c|i]; [left; cbn; rewrite Es; cl|]. right. cbn. rewrite Es. exists f, 0, i; eexists; exists (stack s), []. split; [done|]. split; [done|]. right. by apply Hk.
Qed.
Lemma user_T w p (s s' : state) : step_user mv w p s = Next s' -> clean (stack s) -> T s'.
Proof.
  destruct p; cbn; intros H Hc; repeat (case_match; simplify_eq; try done); simplify_eq.
  all: try (by left).
  all: try (left; by eapply finish_clean; [exact H|]).
  all: try (by eapply await_T; [exact H|done|]).
  all: try (left; cbn; cl).
  - left. eapply deref_clean; [exact H|]. cbn. cl.
  - left. eapply drop_clean; [exact H|]. cbn. cl.
  - eapply await_T; [exact H|cbn; cl|]. intros i [= <-]. exists w. unfold loops. cbn. left.
Qed.
Lemma clean_inv it st : clean (it :: st) -> clean st.
Proof. by inversion 1. Qed.
Lemma T_tail (s : state) it st : T s -> stack s = it :: st -> clean st.
Proof. intros [H|(f & h & i & o & st' & l & E & H & _)] Hst; rewrite Hst in *; [by eapply clean_inv|by simplify_eq]. Qed.

Lemma T_step s s' : T s -> step s = Next s' -> T s'.
Proof.
  intros HT Hs. unfold TaskModel.step in Hs. destruct (stack s) as [|it st] eqn:Hst; [done|].
  pose proof (T_tail _ _ _ HT Hst) as Hc.
  destruct it as [w c|h l|l|x y|w vd x i en c].
  - destruct c as [p|i x h|i o].
    + by eapply user_T.
    + exfalso. destruct HT as [HT|(? & ? & ? & ? & ? & ? & E & _)]; [|congruence]. rewrite Hst in HT. apply Forall_cons_1 in HT as [HT _]. by apply HT.
    + cbn in Hs. destruct w; [|done]. destruct (ctxs s !! i); [|done]. left. by eapply finish_clean; [exact Hs|].
  - destruct l as [|a l]; [left; by eapply deref_clean; [exact Hs|]|].
    repeat (case_match; simplify_eq; try done).
    match goal with E : take_result _ _ _ = _ |- _ => pose proof (take_stack _ _ _ _ E) as Es; pose proof (take_trace mv _ _ _ _ E) as Et end.
    cbn in Es. unfold T. cbn. rewrite Es.
    match goal with |- context [kapply ?k _] => destruct k as [c|i] end; [left; cl|]. right. do 6 eexists. split; [done|]. split; [cl|]. left. by rewrite Et.
  - destruct l as [|a l]; [injection Hs as <-; by left|]. left. eapply drop_clean; [exact Hs|]. cbn. cl.
  - repeat (case_match; simplify_eq; try done). by left.
  - repeat (case_match; simplify_eq; try done); left; cbn; cl.
Qed.
Lemma idle_clean s : T s -> is_idle mv dflt s = true -> clean (stack s).
Proof.
  intros [H|(f & h & i & o & st & l & E & _)] Hi; [done|]. exfalso. unfold is_idle, TaskModel.step in Hi. rewrite E in Hi. cbn in Hi.
  unfold finish in Hi. repeat (case_match; simplify_eq; try done).
Qed.
Lemma T_env e s s' : T s -> env_step e s = Next s' -> T s'.
Proof.
  intros HT Hs. unfold TaskModel.env_step in Hs. destruct (is_idle mv dflt s) eqn:Hi; [|done]. pose proof (idle_clean _ HT Hi) as Hc. left.
  destruct e as [p|f o|qq|].
  - injection Hs as <-. cbn. cl.
  - repeat (case_match; simplify_eq; try done). cbn. cl.
  - by injection Hs as <-.
  - destruct (stack s) as [|it st] eqn:Hst; [injection Hs as <-; by rewrite Hst|]. pose proof (clean_inv _ _ Hc).
    destruct it; try (injection Hs as <-; by rewrite Hst). destruct void; [|done]. injection Hs as <-. cbn. cl.
Qed.
Lemma T_reach q s : reach q s -> T s.
Proof.
  intros [qs H]. remember (init qs) as s0 eqn:E. induction H as [s|s s1 s2 H IH Hs|s s1 s2 e H IH He Hs]; [left; subst; constructor|eapply T_step; eauto|eapply T_env; eauto].
Qed.

Lemma G0_top (s s' : state) it st : WK s -> G0 s s' -> stack s = it :: st -> (∀ f c, it ≠ Run (Co f) c) -> WK s'.
Proof.
  intros HW [E|(e & es & E & N)] Hst Hit f h o l Ht.
  - rewrite E in Ht. destruct (HW _ _ _ _ Ht) as (k & st' & E'). rewrite Hst in E'. simplify_eq. by destruct (Hit f (kapply k o)).
  - rewrite E in Ht. by simplify_eq.
Qed.
Lemma G_WK (s s' : state) : G s s' -> WK s'.
Proof. intros (e & es & E & N) f h o l Ht. rewrite E in Ht. by simplify_eq. Qed.
Lemma WK_step s s' : WK s -> step s = Next s' -> WK s'.
Proof.
  intros HW Hs. unfold TaskModel.step in Hs. destruct (stack s) as [|it st] eqn:Hst; [done|].
  destruct it as [w c|h l|l|x y|w vd x i en c].
  - destruct c as [p|i x h|i o].
    + apply user_G in Hs as [Hg|(n & -> & E)]; [by eapply (G_WK (set_stack st s))|]. eapply G0_top; [done|by left|done|done].
    + cbn in Hs. destruct w; [|done]. apply await_G in Hs. by eapply (G_WK (set_stack st s)).
    + cbn in Hs. destruct w; [|done]. destruct (ctxs s !! i); [|done]. apply finish_G in Hs. by eapply G_WK.
  - destruct l as [|a l].
    + apply deref_G in Hs. eapply (G0_top s); [done|exact Hs|exact Hst|done].
    + repeat (case_match; simplify_eq; try done). intros f' h' o' l' Ht. cbn in Ht. simplify_eq. cbn. eauto.
  - destruct l as [|a l].
    + injection Hs as <-. eapply (G0_top s); [done|by left|exact Hst|done].
    + apply drop_G in Hs. eapply (G0_top s); [done|exact Hs|exact Hst|done].
  - repeat (case_match; simplify_eq; try done). eapply (G0_top s); [done|by left|exact Hst|done].
  - repeat (case_match; simplify_eq; try done); eapply (G0_top s); try done; right; by eapply (G_of _ []).
Qed.
Lemma WK_env e s s' : WK s -> T s -> env_step e s = Next s' -> WK s'.
Proof.
  intros HW HT Hs. unfold TaskModel.env_step in Hs. destruct (is_idle mv dflt s) eqn:Hi; [|done].
  assert (Hno : ∀ f c st, stack s ≠ Run (Co f) c :: st).
  { intros f c st Hst. unfold is_idle in Hi. destruct (step s) as [| |] eqn:E; try done. unfold TaskModel.step in E. rewrite Hst in E.
    destruct c as [p|i x h|i o]; cbn in E.
    - destruct p; cbn in E; unfold finish, do_await, drop_obj, deref in E; repeat (case_match; simplify_eq; try done).
    - unfold do_await in E. repeat (case_match; simplify_eq; try done).
    - unfold finish in E. repeat (case_match; simplify_eq; try done). }
  assert (Hsame : ∀ s1, trace s1 = trace s -> WK s1).
  { intros s1 E f h o l Ht. rewrite E in Ht. destruct (HW _ _ _ _ Ht) as (k & st & E'). by destruct (Hno f (kapply k o) st). }
  destruct e as [p|f o|qq|].
  - injection Hs as <-. by apply Hsame.
  - destruct (heap s !! f) as [fr|]; [|injection Hs as <-; by apply Hsame]. destruct (fstatus fr); injection Hs as <-; try (by apply Hsame).
    intros ???? Ht. cbn in Ht. simplify_eq.
  - injection Hs as <-. intros ???? Ht. cbn in Ht. simplify_eq.
  - destruct (stack s) as [|it st] eqn:Hst; [injection Hs as <-; by apply Hsame|].
    destruct it; try (injection Hs as <-; by apply Hsame). destruct void; [|done]. injection Hs as <-. intros ???? Ht. cbn in Ht. simplify_eq.
Qed.
Lemma WK_reach q s : reach q s -> WK s.
Proof.
  intros [qs H]. remember (init qs) as s0 eqn:E. induction H as [s|s s1 s2 H IH Hs|s s1 s2 e H IH He Hs]; [by subst|eapply WK_step; eauto|].
  eapply WK_env; eauto. apply (T_reach q). exists qs. by subst.
Qed.

Lemma loops_kept (st : list item) : loops (kept st) = loops st.
Proof. induction st as [|it st IH]; [done|]. destruct it; cbn [kept List.filter keep]; fold (kept st); rewrite ?loops_cons, ?IH; done. Qed.
Lemma in_proj f h o (tr : list event) : delivered f h o tr -> LAwait o ∈ proj (Co f) tr.
Proof.
  intros Hd. unfold proj. apply elem_of_list_In, in_flat_map. destruct Hd as [Hd|Hd]; eexists; (split; [apply elem_of_list_In, Hd|]); cbn; rewrite decide_True by done; by left.
Qed.

(** ** When the completion of a task uses a dead context *)
Lemma dangling q s : reach q s ->
  step s = UB UDanglingCtx <-> ∃ f h o l w i, trace s = EWake f h o :: l ∧ EWaitCall w i f (Some h) ∈ l ∧ returned i l.
Proof.
  intros H. pose proof (cx_reach _ _ H) as [HX _]. destruct (rkl_reach _ _ _ _ H) as (HR & HW & HK & HL). split.
  - intros Hu. unfold TaskModel.step in Hu. destruct (stack s) as [|it st] eqn:Hst; [done|].
    destruct it as [w c|h l|l|x y|w vd x i en c].
    + destruct c as [p|i x h|i o].
      * by apply user_step_ub in Hu as [? _].
      * cbn in Hu. destruct w; [|by simplify_eq]. by apply await_ub in Hu as [? _].
      * cbn in Hu. destruct w as [f|]; [|by simplify_eq].
        destruct (ctxs s !! i) as [x|] eqn:Hi; [by apply finish_ub in Hu as [? _]|].
        unfold K in HK. cbn in HK. rewrite (kept_top _ _ _ Hst) in HK by done.
        destruct (k_set _ _ _ _ _ _ _ HK f i o) as (w & h & Hc & Hd); [rewrite curs_cons; left|].
        assert (Hret : returned i (trace s)).
        { destruct (returned_em i (trace s)) as [?|Hn]; [done|]. destruct (proj2 (HX i)) as [? ?]; [|congruence]. split; [|done]. exists w, f, (Some h). done. }
        destruct (T_reach _ _ H) as [Hc'|(f' & h' & i' & o' & st' & l & E & _ & Ht)]; [exfalso; rewrite Hst in Hc'; apply Forall_cons_1 in Hc' as [Hc' _]; by apply Hc'|].
        rewrite Hst in E. simplify_eq.
        destruct Ht as [Ht|[w' Ht]].
        2: { exfalso. destruct (k_loop _ _ _ _ _ _ _ HK w' i') as [[? ?] _]; [|congruence]. rewrite loops_cons, loops_kept. cbn. done. }
        exists f', h', o', l, w, i'. split; [done|].
        assert (Hl : EWaitCall w i' f' (Some h) ∈ l) by (cbn in Hc; rewrite Ht in Hc; by apply elem_of_cons in Hc as [?|?]).
        assert (Hl2 : returned i' l) by (rewrite Ht, returned_cons in Hret; destruct Hret as [(?&?&?)|?]; done).
        destruct (decide (h = h')) as [->|Hne]; [done|]. exfalso.
        assert (Hd2 : delivered f' h o' l).
        { cbn in Hd. rewrite Ht in Hd. destruct Hd as [Hd|Hd]; apply elem_of_cons in Hd as [Hd|Hd]; simplify_eq; [by left|by right]. }
        destruct (l_cre _ _ _ _ _ HL w i' f' (Some h) Hc) as [x Hcr]. cbn in Hcr.
        destruct (w_all _ _ _ _ _ HW f' _ _ _ Hcr) as [_ Hcur]. cbn in Hcur.
        assert (Hin : (Co f', CWaitSet i' o') ∈ curs (kept (stack s))) by (rewrite (kept_top _ _ _ Hst) by done; rewrite curs_cons; left).
        apply Hcur in Hin. apply in_proj in Hd2. rewrite Ht in Hin. unfold proj in Hin. cbn in Hin. rewrite decide_True in Hin by done. cbn in Hin. fold (proj (Co f') l) in Hin.
        apply cwalk_wait in Hin as [[? _]|[(? & E & _)|(? & _ & ?)]]; [done| |done]. injection E as -> E. rewrite E in Hd2. by apply elem_of_nil in Hd2.
    + exfalso. destruct l as [|a l].
      * by apply deref_ub in Hu as [? _].
      * repeat (case_match; simplify_eq; try done).
    + exfalso. destruct l as [|a l]; [done|]. by apply drop_ub in Hu as [? _].
    + exfalso. repeat (case_match; simplify_eq; try done).
    + destruct (ctxs s !! i) as [[o|]|] eqn:Hi; [done|by destruct en|]. exfalso.
      cbn in HK. unfold K in HK. cbn in HK. rewrite (kept_top _ _ _ Hst) in HK by done.
      destruct (k_loop _ _ _ _ _ _ _ HK w i) as [[? ?] _]; [rewrite loops_cons; left|]. congruence.
  - intros (f & h & o & l & w & i & Ht & Hc & Hr).
    destruct (WK_reach _ _ H _ _ _ _ Ht) as (k & st & Hst).
    destruct (l_cre _ _ _ _ _ HL w i f (Some h)) as [x Hcr]; [cbn; rewrite Ht; by right|]. cbn in Hcr.
    destruct (w_all _ _ _ _ _ HW f _ _ _ Hcr) as [_ Hcur]. cbn in Hcur.
    assert (Hin : (Co f, kapply k o) ∈ curs (kept (stack s))) by (rewrite (kept_top _ _ _ Hst) by done; rewrite curs_cons; left).
    apply Hcur in Hin. rewrite Ht in Hin. unfold proj in Hin. cbn in Hin. rewrite decide_True in Hin by done. cbn in Hin.
    apply cwalk_wait in Hin as [[? _]|[(o2 & E & E2)|(? & _ & ?)]]; [done| |done]. destruct k as [|i2]; [done|]. cbn in E2, Hst. simplify_eq.
    unfold TaskModel.step. rewrite Hst. cbn. destruct (ctxs s !! i) as [y|] eqn:Ei; [|done]. exfalso.
    destruct (HX i) as [HX1 _]. destruct HX1 as [_ Hn]; [eauto|]. apply Hn. rewrite Ht, returned_cons. by right.
Qed.

Lemma empty_optional q s : reach q s ->
  ub_next mv dflt q s UEmptyOptional <-> q = true ∧ ∃ w x i c st, stack s = WaitLoop w false x i true c :: st ∧ ∀ f hd o, EWaitCall w i f hd ∈ trace s -> EFinish f o ∉ trace s.
Proof.
  intros H. destruct (rkl_reach _ _ _ _ H) as (HR & HW & HK & HL). split.
  - intros [Hu|(e & He & Hu)].
    + exfalso. unfold TaskModel.step in Hu. destruct (stack s) as [|it st] eqn:Hst; [done|].
      destruct it as [w c|h l|l|x y|w vd x i en c].
      * destruct c as [p|i x h|i o]; cbn in Hu; [by apply user_step_ub in Hu as [_ ?]| |]; (destruct w; [|done]).
        -- by apply await_ub in Hu as [_ ?].
        -- destruct (ctxs s !! i); [by apply finish_ub in Hu as [_ ?]|done].
      * destruct l as [|a l]; [by apply deref_ub in Hu as [_ ?]|]. repeat (case_match; simplify_eq; try done).
      * destruct l as [|a l]; [done|]. by apply drop_ub in Hu as [_ ?].
      * repeat (case_match; simplify_eq; try done).
      * repeat (case_match; simplify_eq; try done).
    + unfold TaskModel.env_step in Hu. destruct (is_idle mv dflt s) eqn:Hi; [|done]. destruct e as [p|f o|qq|]; [done| |done|].
      { exfalso. repeat (case_match; simplify_eq; try done). }
      split; [by apply He|]. destruct (stack s) as [|it st] eqn:Hst; [done|]. destruct it as [w c|h l|l|x y|w vd x i en c]; try done.
      destruct vd; [done|]. unfold is_idle, TaskModel.step in Hi. rewrite Hst in Hi. destruct (ctxs s !! i) as [[o|]|] eqn:Ei; try done. destruct en; [|done].
      exists w, x, i, c, st. split; [done|]. intros f hd o Hc Hf. by apply (l_fin _ _ _ _ _ HL w i f hd o).
  - intros (-> & w & x & i & c & st & Hst & Hn). right. exists EvQuit. split; [done|].
    unfold K in HK. cbn in HK. rewrite (kept_top _ _ _ Hst) in HK by done.
    destruct (k_loop _ _ _ _ _ _ _ HK w i) as [[y Hy] (f & hd & Hc)]; [rewrite loops_cons; left|].
    destruct y as [o|].
    { exfalso. destruct (k_ctx _ _ _ _ _ _ _ HK i o Hy) as (w' & f' & h & Hc' & _ & o' & Hf'). destruct (k_uniq _ _ _ _ _ _ _ HK _ _ _ _ _ _ _ Hc Hc') as (-> & -> & ->). by eapply Hn. }
    unfold TaskModel.env_step, is_idle, TaskModel.step. rewrite Hst, Hy. done.
Qed.

Lemma quit_void q s w x i c st : reach q s -> stack s = WaitLoop w true x i true c :: st -> (∀ f hd o, EWaitCall w i f hd ∈ trace s -> EFinish f o ∉ trace s) ->
  ∃ s', env_step EvQuit s = Next s' ∧ stack s' = Run w (CUser (c (Val dflt))) :: st ∧ trace s' = EWaitRet w i (Val dflt) :: trace s ∧ heap s' = heap s.
Proof.
  intros H Hst Hn. destruct (rkl_reach _ _ _ _ H) as (HR & HW & HK & HL).
  unfold K in HK. cbn in HK. rewrite (kept_top _ _ _ Hst) in HK by done.
  destruct (k_loop _ _ _ _ _ _ _ HK w i) as [[y Hy] (f & hd & Hc)]; [rewrite loops_cons; left|].
  destruct y as [o|].
  { exfalso. destruct (k_ctx _ _ _ _ _ _ _ HK i o Hy) as (w' & f' & h & Hc' & _ & o' & Hf'). destruct (k_uniq _ _ _ _ _ _ _ HK _ _ _ _ _ _ _ Hc Hc') as (-> & -> & ->). by eapply Hn. }
  unfold TaskModel.env_step, is_idle, TaskModel.step. rewrite Hst, Hy. eexists. split; [done|]. done.
Qed.
End facts.
