(** * waitFor(): when it enters the nested loop and what it returns, in every prefix of the trace. *)
From stdpp Require Import gmap list.
From Verif Require Import TaskModel TaskInv TaskSafe TaskView TaskSpec TaskTrace TaskWalk TaskLegal TaskCtx.

Section loop.
Context {V : Type} (mv : V -> V) (dflt : V).
Notation state := (state V). Notation item := (item V). Notation frame := (frame V).
Notation event := (event V). Notation code := (code V).
Notation astep := (astep mv dflt).
Notation R := (R mv). Notation RC := (RC mv). Notation W := (W dflt).
Notation step := (step mv dflt). Notation env_step := (env_step mv dflt).

Ltac dec := repeat match goal with
  | |- context [decide (?a = ?b)] => destruct (decide (a = b)); [subst|]
  | H : context [decide (?a = ?b)] |- _ => destruct (decide (a = b)); [subst|] end.

(** A coroutine is in the queue of [h] exactly while it is suspended on [h]. *)
Lemma queue_phase f h (tr : list event) : legal_trace mv tr ->
  NoDup (queue h tr) ∧ (f ∈ queue h tr <-> phase_of f tr = PhWait h).
Proof.
  intros Hl. revert f h. induction tr as [|e tr IH]; intros f h.
  { cbn. split; [constructor|]. by rewrite elem_of_nil. }
  destruct Hl as [He Hl]. specialize (IH Hl). pose proof (IH f h) as [N Q].
  destruct e; cbn [queue phase_of phase1]; try done;
    try (dec; try done; split; [done|]; rewrite Q; cbn in He; destruct_and?; split; intros; congruence).
  - (* EWait f0 h0 *) cbn in He. destruct He as [Hp _]. dec.
    + split.
      * apply NoDup_app. split_and!; [done| |apply NoDup_singleton]. intros x Hx ->%elem_of_list_singleton.
        apply (IH f0 h0) in Hx. congruence.
      * split; [done|]. intros _. apply elem_of_app. right. by apply elem_of_list_singleton.
    + split.
      * apply NoDup_app. split_and!; [done| |apply NoDup_singleton]. intros x Hx ->%elem_of_list_singleton.
        apply (IH f0 h0) in Hx. congruence.
      * rewrite elem_of_app, elem_of_list_singleton, Q. split; [intros [?|?]; congruence|auto].
    + split; [done|]. rewrite Q. split; intros; congruence.
    + done.
  - (* EWake *) cbn in He. destruct He as (Hp & _ & Hh & _).
    destruct (decide (h = h0)) as [->|Hne].
    + destruct (queue h0 tr) as [|y l] eqn:E; [done|]. cbn in Hh. injection Hh as ->. cbn [tail].
      apply NoDup_cons in N as [N1 N2]. split; [done|]. dec.
      * split; [done|]. by intros.
      * rewrite <- Q, elem_of_cons. split; [auto|]. intros [?|?]; [congruence|done].
    + split; [done|]. dec; [|done]. rewrite Q, Hp. split; intros; congruence.
Qed.

(** ** Invariant of the view *)
Fixpoint SL (tr : list event) (st : list item) : Prop :=
  match st with
  | [] => True
  | WaitLoop _ _ _ i _ _ :: B =>
      (∀ w f h, EWaitCall w i f h ∈ tr -> Co f ∉ actors B ∧ ∀ h', f ∉ fin_list h' B) ∧ SL tr B
  | _ :: B => SL tr B
  end.

Record LC (st : list item) (cx : gmap nat (option (outcome V))) (tr : list event) (n m : nat) : Prop := {
  l_sl : SL tr st;
  l_bnd : ∀ w i f h, EWaitCall w i f h ∈ tr -> i < m ∧ f < n;
  l_inj : ∀ w i f h w' i' h', EWaitCall w i f h ∈ tr -> EWaitCall w' i' f h' ∈ tr -> i = i';
  l_cre : ∀ w i f h, EWaitCall w i f h ∈ tr -> ∃ x, ECreate f KTask (CWaitStart i x h) w ∈ tr;
  l_fin : ∀ w i f h o, EWaitCall w i f h ∈ tr -> EFinish f o ∈ tr -> cx !! i ≠ Some None;
}.
Definition L (s : state) : Prop := LC (stack s) (ctxs s) (trace s) (nf s) (nc s).

Definition quiet (e : event) : Prop := match e with EWaitCall _ _ _ _ | EFinish _ _ => False | _ => True end.

Lemma sl_mono es (tr : list event) st : Forall quiet es -> SL tr st -> SL (es ++ tr) st.
Proof.
  intros Hq. induction st as [|i st IH]; [done|]. destruct i; try done. cbn. intros [H1 H2]. split; [|auto].
  intros w' f h [H|H]%elem_of_app; [|eauto]. rewrite Forall_forall in Hq. by specialize (Hq _ H).
Qed.
Lemma sl_fin es o f (tr : list event) st : es = [EFinish f o] -> SL tr st -> SL (es ++ tr) st.
Proof.
  intros ->. induction st as [|i st IH]; [done|]. destruct i; try done. cbn. intros [H1 H2]. split; [|auto].
  intros w' f' h [?|H]%elem_of_cons; [done|eauto].
Qed.

Lemma l_quiet st st' cx cx' tr es n n' m : LC st cx tr n m -> Forall quiet es -> (SL tr st -> SL tr st') -> n <= n' ->
  (∀ i, cx' !! i = Some None -> cx !! i = Some None) -> LC st' cx' (es ++ tr) n' m.
Proof.
  intros [L1 L2 L3 L4 L5] Hq Hst Hn Hcx.
  assert (Hc : ∀ w i f h, EWaitCall w i f h ∈ es ++ tr -> EWaitCall w i f h ∈ tr).
  { intros w i f h [H|H]%elem_of_app; [|done]. rewrite Forall_forall in Hq. by specialize (Hq _ H). }
  assert (Hf : ∀ f o, EFinish f o ∈ es ++ tr -> EFinish f o ∈ tr).
  { intros f o [H|H]%elem_of_app; [|done]. rewrite Forall_forall in Hq. by specialize (Hq _ H). }
  split.
  - apply sl_mono; auto.
  - intros w i f h H%Hc. destruct (L2 _ _ _ _ H). lia.
  - intros w i f h w' i' h' H1%Hc H2%Hc. eauto.
  - intros w i f h H%Hc. destruct (L4 _ _ _ _ H) as [x ?]. exists x. apply elem_of_app. by right.
  - intros w i f h o H1%Hc H2%Hf H3. eapply L5; eauto.
Qed.

Lemma cwalk_wait i x hd l r : cwalk dflt (CWaitStart i x hd) l r ->
  (l = [] ∧ r = Some (CWaitStart i x hd)) ∨ (∃ o, l = [LAwait o] ∧ r = Some (CWaitSet i o)) ∨
  (∃ o, l = [LFinish (Val dflt); LAwait o] ∧ r = None).
Proof.
  induction 1 as [|l q e r _ IH Ha]; [auto|].
  destruct IH as [[-> [= ->]]|[(o & -> & [= ->])|(o & -> & ?)]]; [| |done].
  - inversion Ha; subst. right. left. eauto.
  - inversion Ha; subst. right. right. eauto.
Qed.

Ltac quietl := repeat constructor.

Lemma l_step q s s' : R s -> W s -> K q s -> L s -> astep q s s' -> L s'.
Proof.
  intros HR HW HK HL Hs. unfold L in *.
  destruct Hs; cbn [heap stack trace nf nc ctxs push emit set_stack set_heap set_alive set_ctxs upd] in *.
  all: try match goal with H : stack _ = _ |- _ => rewrite H in * end.
  all: try match goal with H : act_event _ _ ?e _ |- context [?e :: ?t] =>
     apply (l_quiet _ _ _ _ _ [e] _ _ _ HL); [by destruct H; quietl|done|lia|done] end.
  all: try (apply (l_quiet _ _ _ _ _ [] _ _ _ HL); [quietl|done|lia|done]).
  all: try match goal with |- LC _ _ (?e :: trace ?s) _ _ =>
     apply (l_quiet _ _ _ _ _ [e] _ _ _ HL); [by quietl|done|lia|done] end.
  all: try match goal with |- LC _ _ (?e :: ?e2 :: trace ?s) _ _ =>
     apply (l_quiet _ _ _ _ _ [e; e2] _ _ _ HL); [by quietl|done|lia|done] end.
  all: try match goal with |- LC _ _ (?e :: ?e2 :: ?e3 :: trace ?s) _ _ =>
     apply (l_quiet _ _ _ _ _ [e; e2; e3] _ _ _ HL); [by quietl|done|lia|done] end.
  - (* waitcall *)
    destruct HL as [L1 L2 L3 L4 L5]. cbn in L1. 
    assert (Hnew : ∀ w' i' f' h', EWaitCall w' i' f' h' ∈ EStart (nf s) :: ECreate (nf s) KTask (CWaitStart (nc s) x hd) w
          :: EWaitCall w (nc s) (nf s) hd :: trace s -> (w' = w ∧ i' = nc s ∧ f' = nf s ∧ h' = hd) ∨ EWaitCall w' i' f' h' ∈ trace s).
    { intros w' i' f' h' H2. apply elem_of_cons in H2 as [?|H2]; [done|]. apply elem_of_cons in H2 as [?|H2]; [done|].
      apply elem_of_cons in H2 as [?|H2]; [|by right]. left. by simplify_eq. }
    assert (Hfin : ∀ f o, EFinish f o ∈ EStart (nf s) :: ECreate (nf s) KTask (CWaitStart (nc s) x hd) w
          :: EWaitCall w (nc s) (nf s) hd :: trace s -> EFinish f o ∈ trace s).
    { intros f o H2. apply elem_of_cons in H2 as [?|H2]; [done|]. apply elem_of_cons in H2 as [?|H2]; [done|].
      apply elem_of_cons in H2 as [?|H2]; [done|]. done. }
    split.
    + cbn [SL]. split.
      * intros w' f h Hin. apply Hnew in Hin as [(-> & _ & -> & ->)|Hin].
        2:{ destruct (L2 _ _ _ _ Hin). lia. }
        pose proof (r_fresh _ _ _ _ _ _ HR (nf s)) as [Hph _]; [lia|].
        unfold TaskTrace.R in HR. rewrite H in HR. apply rc_pop in HR. split.
        -- intros Hin. destruct (si_act _ _ _ _ (r_si _ _ _ _ _ _ HR) (nf s)) as (fr & Hf & _); [by right|]. congruence.
        -- intros h' Hin.
           assert (Hq : nf s ∈ queue h' (trace s)).
           { rewrite (r_queue _ _ _ _ _ _ HR h'). unfold pending. pose proof (fin_list_in _ _ _ Hin) as Hfi.
             destruct (si_fin _ _ _ _ (r_si _ _ _ _ _ _ HR) _ Hfi) as (fr & Hf & Hfin'). by rewrite Hf, Hfin'. }
           apply (queue_phase _ _ _ (r_legal _ _ _ _ _ _ HR)) in Hq. congruence.
      * assert (Hlt : ∀ st : list item, (∀ w i, (w, i) ∈ loops st -> i < nc s) -> SL (trace s) st -> SL (EStart (nf s) :: ECreate (nf s) KTask (CWaitStart (nc s) x hd) w
          :: EWaitCall w (nc s) (nf s) hd :: trace s) st).
        { clear -Hnew. induction st as [|it st IH]; [done|]. intros Hb.
          assert (Hb' : ∀ w i, (w, i) ∈ loops st -> i < nc s).
          { intros w' i Hin. apply (Hb w'). rewrite loops_cons. apply elem_of_app. by right. }
          destruct it; cbn; try by apply IH. intros [H1 H2]. split; [|by apply IH].
          intros w' f h Hin. apply Hnew in Hin as [(-> & -> & _)|Hin]; [|eauto].
          specialize (Hb w0 (nc s)). rewrite loops_cons in Hb. cbn in Hb. specialize (Hb (elem_of_list_here _ _)). lia. }
        apply Hlt; [|done]. intros w' i Hin. unfold K in HK. rewrite H in HK.
        apply (k_cxb _ _ _ _ _ _ _ HK). apply (k_loop _ _ _ _ _ _ _ HK w'). by rewrite loops_cons.
    + intros w' i' f' h' Hin. apply Hnew in Hin as [(-> & -> & -> & ->)|Hin]; [lia|]. destruct (L2 _ _ _ _ Hin). lia.
    + intros w1 i1 f1 h1 w2 i2 h2 H2 H3.
      apply Hnew in H2 as [(-> & -> & -> & ->)|H2]; apply Hnew in H3 as [(-> & -> & E & ->)|H3]; try done.
      * destruct (L2 _ _ _ _ H3). lia.
      * subst. destruct (L2 _ _ _ _ H2). lia.
      * eauto.
    + intros w' i' f' h' Hin. apply Hnew in Hin as [(-> & -> & -> & ->)|Hin].
      * exists x. right. left.
      * destruct (L4 _ _ _ _ Hin) as [x' ?]. exists x'. by repeat right.
    + intros w' i' f' h' o Hin Hfi%Hfin. apply Hnew in Hin as [(-> & -> & -> & ->)|Hin].
      * exfalso. pose proof (r_fresh _ _ _ _ _ _ HR (nf s)) as [Hph _]; [lia|].
        destruct (phase_finished mv _ _ _ (r_legal _ _ _ _ _ _ HR) Hfi); congruence.
      * rewrite lookup_insert_ne; [by eapply L5|]. destruct (L2 _ _ _ _ Hin). lia.
  - (* finish *)
    destruct HL as [L1 L2 L3 L4 L5]. cbn in L1.
    assert (Hnw : ∀ w i h, EWaitCall w i f h ∉ trace s).
    { intros w i h Hin. destruct (L4 _ _ _ _ Hin) as [x Hc].
      unfold TaskWalk.W in HW. rewrite H in HW. destruct (w_all _ _ _ _ _ HW f _ _ _ Hc) as [_ Hcur].
      specialize (Hcur (CUser p)). rewrite curs_cons in Hcur. specialize (Hcur (elem_of_list_here _ _)).
      apply cwalk_wait in Hcur as [[_ ?]|[(? & _ & ?)|(? & _ & ?)]]; done. }
    split.
    + cbn [SL]. by apply (sl_fin [EFinish f o] o f).
    + intros w i f' h [?|?]%elem_of_cons; [done|eauto].
    + intros w1 i1 f1 h1 w2 i2 h2 [?|?]%elem_of_cons [?|?]%elem_of_cons; try done. eauto.
    + intros w i f' h [?|Hin]%elem_of_cons; [done|]. destruct (L4 _ _ _ _ Hin) as [x' ?]. exists x'. by right.
    + intros w i f' h o' [?|Hin]%elem_of_cons Hfi; [done|]. apply elem_of_cons in Hfi as [?|Hfi]; [|by eapply L5].
      simplify_eq. by destruct (Hnw w i h).
  - (* waitset *)
    destruct HL as [L1 L2 L3 L4 L5]. cbn in L1. split.
    + cbn [SL]. by apply (sl_fin [EFinish f (Val dflt)] (Val dflt) f).
    + intros w i' f' h [?|?]%elem_of_cons; [done|eauto].
    + intros w1 i1 f1 h1 w2 i2 h2 [?|?]%elem_of_cons [?|?]%elem_of_cons; try done. eauto.
    + intros w i' f' h [?|Hin]%elem_of_cons; [done|]. destruct (L4 _ _ _ _ Hin) as [x' ?]. exists x'. by right.
    + intros w i' f' h o' [?|Hin]%elem_of_cons Hfi; [done|].
      destruct (decide (i' = i)) as [->|Hne]; [by rewrite lookup_insert|]. rewrite lookup_insert_ne by done.
      apply elem_of_cons in Hfi as [?|Hfi]; [|by eapply L5]. simplify_eq. exfalso.
      unfold K in HK. rewrite H in HK.
      destruct (k_set _ _ _ _ _ _ _ HK f i o) as (w2 & h2 & Hc & _); [rewrite curs_cons; left|].
      apply Hne. by eapply L3.
  - (* waitret *)
    apply (l_quiet _ _ _ _ _ [EWaitRet w i o] _ _ _ HL); [by quietl|by intros [_ ?]|lia|].
    intros i' Hi. destruct (decide (i' = i)) as [->|]; [by rewrite lookup_delete in Hi|by rewrite lookup_delete_ne in Hi].
  - (* quit *)
    apply (l_quiet _ _ _ _ _ [EWaitRet w i (Val dflt)] _ _ _ HL); [by quietl|by intros [_ ?]|lia|].
    intros i' Hi. destruct (decide (i' = i)) as [->|]; [by rewrite lookup_delete in Hi|by rewrite lookup_delete_ne in Hi].
Qed.

Lemma l_init qs : L (init qs).
Proof. split; try done; cbn; intros; try (by match goal with H : _ ∈ [] |- _ => apply elem_of_nil in H end). Qed.

Theorem rkl_reach q s : reach mv dflt q s -> R (view s) ∧ W (view s) ∧ K q (view s) ∧ L (view s).
Proof.
  apply (view_invariant mv dflt q (λ s, R s ∧ W s ∧ K q s ∧ L s)).
  - intros qs. split_and!; [apply r_init|apply w_init|apply k_init|apply l_init].
  - intros s1 s2 (H1 & H2 & H3 & H4) Hs. split_and!; [by eapply r_step|by eapply w_step|by eapply k_step|by eapply l_step].
Qed.

(** ** Events emitted by one machine step *)
Definition noret (e : event) : Prop := match e with EWaitRet _ _ _ | ELoop _ => False | _ => True end.
Definition adds (s s' : state) : Prop := ∃ es, trace s' = es ++ trace s ∧ Forall noret es.

Lemma adds_of es s s' : trace s' = es ++ trace s -> Forall noret es -> adds s s'.
Proof. intros. by exists es. Qed.

Ltac addl := first
  [ apply (adds_of []); [reflexivity|by repeat constructor]
  | match goal with |- adds ?s ?s' => let t := eval cbn in (trace s') in
      match t with
      | ?a :: ?b :: ?c :: ?d :: trace s => apply (adds_of [a;b;c;d]); [reflexivity|by repeat constructor]
      | ?a :: ?b :: ?c :: trace s => apply (adds_of [a;b;c]); [reflexivity|by repeat constructor]
      | ?a :: ?b :: trace s => apply (adds_of [a;b]); [reflexivity|by repeat constructor]
      | ?a :: trace s => apply (adds_of [a]); [reflexivity|by repeat constructor]
      end end ].

Lemma adds_trans s1 s2 s3 : adds s1 s2 -> adds s2 s3 -> adds s1 s3.
Proof.
  intros (e1 & E1 & F1) (e2 & E2 & F2). exists (e2 ++ e1). split; [by rewrite E2, E1, app_assoc|].
  by apply Forall_app.
Qed.

Lemma deref_adds h s s' : deref h s = Next s' -> adds s s'.
Proof. unfold deref. intros H. repeat (case_match; simplify_eq; try done); addl. Qed.
Lemma drop_adds x s s' : drop_obj x s = Next s' -> adds s s'.
Proof.
  unfold drop_obj. intros H. repeat (case_match; simplify_eq; try done).
  - apply deref_adds in H. eapply adds_trans; [|exact H]. addl.
  - addl.
Qed.
Lemma finish_adds f o s s' : finish f o s = Next s' -> adds s s'.
Proof. unfold finish. intros H. repeat (case_match; simplify_eq; try done). addl. Qed.
Lemma take_trace h s o s1 : take_result mv h s = (o, s1) -> trace s1 = trace s.
Proof. unfold take_result. intros H. repeat (case_match; simplify_eq; try done). Qed.
Lemma await_adds f x k s s' : do_await mv f x k s = Next s' -> adds s s'.
Proof.
  unfold do_await. intros H. repeat (case_match; simplify_eq; try done); try addl.
  all: match goal with E : take_result _ _ _ = _ |- _ => apply take_trace in E end.
  all: eapply (adds_of [_]); [cbn; by f_equal|by repeat constructor].
Qed.

Lemma adds_push s s' s0 : trace s0 = trace s -> adds s0 s' -> adds s s'.
Proof. intros E (es & E' & F). exists es. by rewrite E', E. Qed.

Lemma user_adds w p s s' : step_user mv w p s = Next s' -> adds s s'.
Proof.
  destruct p; cbn; intros H; repeat (case_match; simplify_eq; try done); try (simplify_eq; addl).
  all: try (apply finish_adds in H; exact H).
  all: try (apply await_adds in H; exact H).
  - apply deref_adds in H. eapply adds_trans; [|exact H]. addl.
  - apply drop_adds in H. eapply adds_trans; [|exact H]. addl.
  - apply await_adds in H. eapply adds_trans; [|exact H]. addl.
Qed.

Lemma step_adds s s' : step s = Next s' -> adds s s' ∨
  (∃ w vd x i ent c st o, stack s = WaitLoop w vd x i ent c :: st ∧ ctxs s !! i = Some (Some o) ∧
     trace s' = EWaitRet w i o :: trace s) ∨
  (∃ w vd x i c st, stack s = WaitLoop w vd x i false c :: st ∧ ctxs s !! i = Some None ∧ trace s' = ELoop i :: trace s).
Proof.
  unfold TaskModel.step. intros H. destruct (stack s) as [|it st] eqn:Hst; [done|]. destruct it as [w c|h l|l|x y|w vd x i ent c].
  - left. destruct c; cbn in H.
    + by apply user_adds in H.
    + destruct w; [|done]. by apply await_adds in H.
    + destruct w; [|done]. destruct (ctxs s !! c); [|done]. by apply finish_adds in H.
  - left. destruct l as [|a l]; [by apply deref_adds in H|].
    repeat (case_match; simplify_eq; try done).
    match goal with E : take_result _ _ _ = _ |- _ => apply take_trace in E end.
    eapply (adds_of [_]); [cbn; by f_equal|by repeat constructor].
  - left. destruct l as [|a l]; [simplify_eq; addl|]. by apply drop_adds in H.
  - left. repeat (case_match; simplify_eq; try done). addl.
  - right. destruct (ctxs s !! i) as [[o|]|] eqn:Hi; [|destruct ent; [done|]|done]; simplify_eq.
    + left. eauto 20.
    + right. eauto 20.
Qed.

Lemma env_adds e s s' : (e = EvQuit -> False) -> env_step e s = Next s' -> adds s s'.
Proof.
  unfold TaskModel.env_step. intros He H. destruct (is_idle mv dflt s); [|done].
  destruct e; try (by destruct He); repeat (case_match; simplify_eq; try done); simplify_eq; addl.
Qed.

Lemma wait_trace_adds q s s' : adds s s' -> wait_trace q (trace s) -> wait_trace q (trace s').
Proof.
  intros (es & -> & F) H. induction F as [|e es He F IH]; [done|]. cbn. split; [|done]. by destruct e.
Qed.

Lemma legal_self f k b (tr : list event) : legal_trace mv tr -> ECreate f k b (Co f) ∈ tr -> False.
Proof.
  induction tr as [|e tr IH]; [by intros _ ?%elem_of_nil|]. intros [He Hl] [<-|Hin]%elem_of_cons; [|auto].
  cbn in He. destruct He. congruence.
Qed.

Lemma actors_kept (st : list item) : actors (kept st) = actors st.
Proof.
  induction st as [|i st IH]; [done|]. unfold kept in *. cbn [List.filter].
  destruct i; cbn [keep]; rewrite ?actors_cons, ?IH; done.
Qed.

Lemma loop_unfinished q s w vd x i c st : reach mv dflt q s ->
  stack s = WaitLoop w vd x i false c :: st -> ctxs s !! i = Some None ->
  ∃ w f hd, EWaitCall w i f hd ∈ trace s ∧ ∀ h o, hd = Some h -> EFinish h o ∉ trace s.
Proof.
  intros Hr Hst Hi. destruct (rkl_reach _ _ Hr) as (HR & HW & HK & HL).
  destruct (good_reach _ _ _ _ Hr) as [HI _].
  unfold TaskTrace.R, TaskWalk.W, K, L in *. cbn [heap stack trace nf nc ctxs view] in *.
  rewrite (kept_top _ _ _ Hst) in HR, HW, HK, HL by done.
  destruct (k_loop _ _ _ _ _ _ _ HK w i) as [_ (f & hd & Hc)]; [rewrite loops_cons; left|].
  exists w, f, hd. split; [done|]. intros h o -> Hfin.
  destruct (l_cre _ _ _ _ _ HL _ _ _ _ Hc) as [x' Hcr].
  destruct (w_all _ _ _ _ _ HW f _ _ _ Hcr) as [HS _].
  destruct (l_sl _ _ _ _ _ HL) as [Hpos _]. destruct (Hpos _ _ _ Hc) as [Hna Hnl].
  pose proof (r_legal _ _ _ _ _ _ HR) as Hleg.
  assert (Hnf : ∀ o, EFinish f o ∉ trace s).
  { intros o' Hf. by apply (l_fin _ _ _ _ _ HL _ _ _ _ _ Hc Hf). }
  rewrite lookup_fmap in HS. destruct (heap s !! f) as [fr|] eqn:Hf; cbn in HS.
  2:{ pose proof (r_loc _ _ _ _ _ _ HR f) as Hl. cbn in Hl. rewrite lookup_fmap, Hf in Hl. cbn in Hl.
      destruct Hl as [[Hp _]|Hp]; [by eapply phase_created|].
      destruct (fin_finished mv f (trace s) Hleg) as [o' ?]; [by right|]. by eapply Hnf. }
  pose proof (r_loc _ _ _ _ _ _ HR f) as Hl. cbn in Hl. rewrite lookup_fmap, Hf in Hl. cbn in Hl.
  destruct Hl as [Hph _].
  destruct (fstatus fr) as [p| |h' k| |cc|] eqn:Es; cbn in HS, Hph.
  - by destruct HS.
  - pose proof (inv_run _ _ _ _ _ _ _ HI f fr Hf Es) as Hin. cbn in Hin. rewrite Hst in Hin.
    rewrite actors_cons in Hin. cbn in Hin. apply elem_of_cons in Hin as [E|Hin].
    + (* f is the caller itself: impossible, it was created by w *)
      subst w. exact (legal_self f KTask (CWaitStart i x' (Some h)) (trace s) Hleg Hcr).
    + apply Hna. by rewrite actors_kept.
  - destruct HS as (c0 & Hw & Ha). apply cwalk_wait in Hw as [[_ [= ->]]|[(? & _ & [= ->])|(? & _ & ?)]]; [|by inversion Ha|done].
    inversion Ha; subst. apply (queue_phase f h' (trace s) Hleg) in Hph.
    rewrite (r_queue _ _ _ _ _ _ HR h') in Hph. unfold pending in Hph.
    rewrite lookup_fmap in Hph. destruct (heap s !! h') as [fh|] eqn:Hh; [|by apply elem_of_nil in Hph]. cbn in Hph.
    assert (is_final (norm fh) = true) as E.
    { pose proof (r_loc _ _ _ _ _ _ HR h') as Hl. cbn in Hl. rewrite lookup_fmap, Hh in Hl. cbn in Hl.
      destruct Hl as [Hph' _]. unfold is_final. cbn.
      destruct (phase_finished mv _ _ _ Hleg Hfin) as [E|E]; rewrite E in Hph'; by destruct (fstatus fh). }
    rewrite E, fin_list_cons in Hph. cbn in Hph. by apply (Hnl h').
  - destruct HS as (c0 & k & Hw & Ha). apply cwalk_wait in Hw as [[_ [= ->]]|[(? & _ & [= ->])|(? & _ & ?)]]; [|by inversion Ha|done].
    by inversion Ha.
  - apply cwalk_wait in HS as [[_ ?]|[(? & _ & ?)|(? & _ & ?)]]; done.
  - destruct (fin_finished mv f (trace s) Hleg) as [o' ?]; [by left|]. by eapply Hnf.
Qed.

Theorem wait_trace_reach q s : reach mv dflt q s -> wait_trace q (trace s).
Proof.
  intros [qs H]. remember (init qs) as s0 eqn:E0. induction H as [s|s s1 s2 H IH Hs|s s1 s2 e H IH He Hs]; subst; [done|..].
  - specialize (IH eq_refl). assert (Hr : reach mv dflt q s1) by by exists qs.
    destruct (step_adds _ _ Hs) as [Ha|[(w & vd & x & i & ent & c & st & o & Hst & Hi & ->)|(w & vd & x & i & c & st & Hst & Hi & ->)]].
    + by eapply wait_trace_adds.
    + cbn. split; [|done]. intros Hq. destruct (rk_reach _ _ _ _ Hr) as [_ HK]. unfold K in HK. cbn in HK.
      rewrite (kept_top _ _ _ Hst) in HK by done.
      destruct (k_ctx _ _ _ _ _ _ _ HK _ _ Hi) as (w' & f & h & Hc & Hd & _).
      destruct (k_loop _ _ _ _ _ _ _ HK w i) as [_ (f2 & hd & Hc2)]; [rewrite loops_cons; left|].
      destruct (k_uniq _ _ _ _ _ _ _ HK _ _ _ _ _ _ _ Hc Hc2) as (-> & -> & <-). eauto.
    + cbn. split; [|done]. by eapply loop_unfinished.
  - specialize (IH eq_refl). destruct (decide (q = false)) as [->|Hq].
    + eapply wait_trace_adds; [|exact IH]. eapply env_adds; [|exact Hs]. intros E. by specialize (He E).
    + assert (Hcase : e = EvQuit ∨ e ≠ EvQuit) by (destruct e; auto).
      destruct Hcase as [->|Hne].
      2:{ eapply wait_trace_adds; [|exact IH]. eapply env_adds; [|exact Hs]. auto. }
      unfold TaskModel.env_step in Hs. repeat (case_match; simplify_eq; try done).
Qed.
End loop.
