(** * A trace-level view of the Task machine.

    [view] forgets reference counts, Task objects and pending destructors; [astep] describes what a
    machine step does to the remaining state and to the trace. Every step of the machine is a sequence
    of [astep]s (theorem [view_step], [view_env]), so trace properties are proved on [astep]. *)
From stdpp Require Import gmap list relations.
From Verif Require Import TaskModel TaskInv TaskSafe TaskSpec.

Arguments finals {V} st : simpl never.
Arguments actors {V} st : simpl never.
Arguments fin_list {V} h st : simpl never.

Section view.
Context {V : Type} (mv : V -> V) (dflt : V).
Notation state := (state V). Notation item := (item V). Notation frame := (frame V).
Notation event := (event V). Notation prog := (prog V V).

(** ** The view *)
Definition norm (fr : frame) : frame := Frame (fkind fr) (fstatus fr) (fawaiters fr) 0 (fresult fr) [].
Definition keep (i : item) : bool := match i with Drops _ | Assign _ _ => false | _ => true end.
Definition kept (st : list item) : list item := List.filter keep st.
Definition view (s : state) : state :=
  State (norm <$> heap s) ∅ (alive s) (ctxs s) (kept (stack s)) (trace s) (nf s) 0 (nc s).

Definition vframe k st : frame := Frame k st [] 0 None [].

(** [await_of c hd k]: the code [c] is about to co_await a task that refers to [hd], with continuation k. *)
Inductive await_of : code V -> option nat -> kont V -> Prop :=
  | await_user x c hd : await_of (CUser (PAwait x c)) hd (KUser c)
  | await_wait i x hd : await_of (CWaitStart i x hd) hd (KWait i).

(** Silent-in-heap actions of user code. *)
Inductive act_event (w : actor) : prog -> event -> prog -> Prop :=
  | ae_obs o p : act_event w (PObs o p) (EObs w o) p
  | ae_null k c t : act_event w (PNull k c) (EAct w (ANull t)) (c t)
  | ae_move x c t : act_event w (PMove x c) (EAct w (AMove t)) (c t)
  | ae_assign x y p : act_event w (PAssign x y p) (EAct w AAssign) p
  | ae_drop x p : act_event w (PDrop x p) (EAct w (ADrop x)) p
  | ae_ready x c b : act_event w (PReady x c) (EAct w (AReady b)) (c b).

(** Control is in an event loop: the outermost one or that of a waitFor(). *)
Definition idle_stack (st : list item) : Prop :=
  match st with [] => True | WaitLoop _ _ _ _ true _ :: _ => True | _ => False end.

Inductive astep (q : bool) : state -> state -> Prop :=
  | a_act s w p st e p' :
      stack s = Run w (CUser p) :: st -> act_event w p e p' ->
      astep q s (emit e (set_stack (Run w (CUser p') :: st) s))
  | a_alive s w qq c st :
      stack s = Run w (CUser (PAlive qq c)) :: st ->
      astep q s (emit (EAct w (AAlive qq (bool_decide (qq ∈ alive s))))
        (set_stack (Run w (CUser (c (bool_decide (qq ∈ alive s)))) :: st) s))
  | a_kill s w qq p st :
      stack s = Run w (CUser (PKill qq p)) :: st ->
      astep q s (emit (EKill qq) (emit (EAct w AKill)
        (set_alive (alive s ∖ {[qq]}) (set_stack (Run w (CUser p) :: st) s))))
  | a_call s w ps b c st t ps' :
      stack s = Run w (CUser (PCall KTask ps b c)) :: st ->
      heap s !! nf s = None ->
      astep q s (State (<[nf s := vframe KTask Running]> (heap s)) ∅ (alive s) (ctxs s)
        (Run (Co (nf s)) (CUser (b ps')) :: Run w (CUser (c t)) :: st)
        (EStart (nf s) :: ECreate (nf s) KTask (CUser (b ps')) w :: EAct w (ACall t (nf s) ps') :: trace s)
        (S (nf s)) 0 (nc s))
  | a_call_lazy s w ps b c st t ps' :
      stack s = Run w (CUser (PCall KLazy ps b c)) :: st ->
      heap s !! nf s = None ->
      astep q s (State (<[nf s := vframe KLazy (Initial (b ps'))]> (heap s)) ∅ (alive s) (ctxs s)
        (Run w (CUser (c t)) :: st)
        (ECreate (nf s) KLazy (CUser (b ps')) w :: EAct w (ACall t (nf s) ps') :: trace s)
        (S (nf s)) 0 (nc s))
  | a_waitcall s w vd x c st hd :
      stack s = Run w (CUser (PWaitFor vd x c)) :: st ->
      heap s !! nf s = None -> ctxs s !! nc s = None ->
      astep q s (State (<[nf s := vframe KTask Running]> (heap s)) ∅ (alive s) (<[nc s := None]> (ctxs s))
        (Run (Co (nf s)) (CWaitStart (nc s) x hd) :: WaitLoop w vd x (nc s) false c :: st)
        (EStart (nf s) :: ECreate (nf s) KTask (CWaitStart (nc s) x hd) w
          :: EWaitCall w (nc s) (nf s) hd :: trace s)
        (S (nf s)) 0 (S (nc s)))
  | a_plainret s n v st :
      stack s = Run (Plain n) (CUser (PRet v)) :: st -> astep q s (set_stack st s)
  | a_finish s f p o st fr :
      stack s = Run (Co f) (CUser p) :: st -> (∃ v, p = PRet v ∧ o = Val v) ∨ (∃ e, p = PThrow e ∧ o = Exc e) ->
      heap s !! f = Some fr -> fstatus fr = Running -> f ∉ finals st ->
      astep q s (push (FinalSusp f (fawaiters fr)) (emit (EFinish f o)
        (upd f (fun fr => fr_result (Some o) (fr_status Final fr)) (set_stack st s))))
  | a_waitset s f i o st fr :
      stack s = Run (Co f) (CWaitSet i o) :: st -> is_Some (ctxs s !! i) ->
      heap s !! f = Some fr -> fstatus fr = Running -> f ∉ finals st ->
      astep q s (push (FinalSusp f (fawaiters fr)) (emit (EFinish f (Val dflt))
        (upd f (fun fr => fr_result (Some (Val dflt)) (fr_status Final fr))
          (set_ctxs (<[i := Some o]> (ctxs s)) (set_stack st s)))))
  | a_hang s f c k st :
      stack s = Run (Co f) c :: st -> await_of c None k -> 
      astep q s (emit (EHang f) (upd f (fr_status AwaitNull) (set_stack st s)))
  | a_now s f c h k st fr o :
      stack s = Run (Co f) c :: st -> await_of c (Some h) k ->
      heap s !! h = Some fr -> is_final fr = true -> fresult fr = Some o ->
      astep q s (push (Run (Co f) (kapply k o)) (emit (ENow f h o)
        (upd h (fr_result (Some (consumed mv o))) (set_stack st s))))
  | a_wait s f c h k st fr :
      stack s = Run (Co f) c :: st -> await_of c (Some h) k ->
      heap s !! h = Some fr -> is_final fr = false -> fkind fr = KTask ->
      astep q s (emit (EWait f h) (upd f (fr_status (AwaitTask h k))
        (upd h (fun fr => fr_awaiters (fawaiters fr ++ [f]) fr) (set_stack st s))))
  | a_wait_lazy s f c h k st fr p :
      stack s = Run (Co f) c :: st -> await_of c (Some h) k -> f ≠ h ->
      heap s !! h = Some fr -> fstatus fr = Initial p -> fkind fr = KLazy ->
      astep q s (push (Run (Co h) (CUser p)) (emit (EStart h) (upd h (fr_status Running)
        (emit (EWait f h) (upd f (fr_status (AwaitTask h k))
        (upd h (fun fr => fr_awaiters (fawaiters fr ++ [f]) fr) (set_stack st s)))))))
  | a_leafwait s f c st :
      stack s = Run (Co f) (CUser (PLeaf c)) :: st ->
      astep q s (emit (ELeafWait f) (upd f (fr_status (AwaitLeaf c)) (set_stack st s)))
  | a_wake s h a l st fa k fh o :
      stack s = FinalSusp h (a :: l) :: st -> h ∉ finals st ->
      heap s !! a = Some fa -> fstatus fa = AwaitTask h k ->
      heap s !! h = Some fh -> is_final fh = true -> fresult fh = Some o -> a ≠ h ->
      astep q s (push (Run (Co a) (kapply k o)) (emit (EWake a h o)
        (upd h (fr_result (Some (consumed mv o))) (upd a (fr_status Running)
          (set_stack (FinalSusp h l :: st) s)))))
  | a_finalpop s h st :
      stack s = FinalSusp h [] :: st -> h ∉ finals st -> astep q s (set_stack st s)
  | a_destroy s h fr :
      heap s !! h = Some fr -> is_final fr = true -> h ∉ finals (stack s) ->
      astep q s (emit (EDestroy h) (set_heap (delete h (heap s)) s))
  | a_loop s w vd x i c st :
      stack s = WaitLoop w vd x i false c :: st -> ctxs s !! i = Some None ->
      astep q s (emit (ELoop i) (set_stack (WaitLoop w vd x i true c :: st) s))
  | a_waitret s w vd x i ent c st o :
      stack s = WaitLoop w vd x i ent c :: st -> ctxs s !! i = Some (Some o) ->
      astep q s (push (Run w (CUser (c o))) (emit (EWaitRet w i o)
        (set_ctxs (delete i (ctxs s)) (set_stack st s))))
  | a_handler s p :
      idle_stack (stack s) ->
      astep q s (State (heap s) ∅ (alive s) (ctxs s) (Run (Plain (nf s)) (CUser p) :: stack s) (trace s)
        (S (nf s)) 0 (nc s))
  | a_fire s f fr c o :
      idle_stack (stack s) -> heap s !! f = Some fr -> fstatus fr = AwaitLeaf c ->
      astep q s (push (Run (Co f) (CUser (c o))) (emit (ELeafWake f o) (upd f (fr_status Running) s)))
  | a_envkill s qq :
      idle_stack (stack s) ->
      astep q s (emit (EKill qq) (set_alive (alive s ∖ {[qq]}) s))
  | a_quit s w x i ent c st :
      q = true -> stack s = WaitLoop w true x i ent c :: st ->
      astep q s (push (Run w (CUser (c (Val dflt)))) (emit (EWaitRet w i (Val dflt))
        (set_ctxs (delete i (ctxs s)) (set_stack st s)))).

(** ** Simulation *)
Lemma kept_cons_keep i st : keep i = true -> kept (i :: st) = i :: kept st.
Proof. intros H. unfold kept. cbn. by rewrite H. Qed.

Lemma finals_kept st : finals (kept st) = finals st.
Proof.
  induction st as [|i st IH]; [done|]. unfold kept in *. cbn [List.filter].
  destruct i; cbn [keep]; rewrite ?finals_cons, ?IH; done.
Qed.

Lemma norm_alter (g : frame -> frame) f (hp : gmap nat frame) :
  (∀ fr, norm (g fr) = g (norm fr)) -> norm <$> alter g f hp = alter g f (norm <$> hp).
Proof.
  intros H. apply map_eq. intros x. rewrite lookup_fmap. destruct (decide (x = f)) as [->|].
  - rewrite !lookup_alter, lookup_fmap. destruct (hp !! f); cbn; by rewrite ?H.
  - by rewrite !lookup_alter_ne, lookup_fmap.
Qed.

Lemma norm_alter_rc n f (hp : gmap nat frame) : norm <$> alter (fr_rc n) f hp = norm <$> hp.
Proof.
  apply map_eq. intros x. rewrite !lookup_fmap. destruct (decide (x = f)) as [->|].
  - rewrite lookup_alter. by destruct (hp !! f).
  - by rewrite lookup_alter_ne.
Qed.

Lemma view_lookup s f : heap (view s) !! f = norm <$> heap s !! f.
Proof. cbn. by rewrite lookup_fmap. Qed.

(** The view of a state up to Task objects. *)
Lemma view_eq s s' :
  norm <$> heap s = heap s' -> objs s' = ∅ -> alive s = alive s' -> ctxs s = ctxs s' ->
  kept (stack s) = stack s' -> trace s = trace s' -> nf s = nf s' -> nt s' = 0 -> nc s = nc s' ->
  view s = s'.
Proof. destruct s'. cbn. unfold view. by intros -> -> -> -> -> -> -> -> ->. Qed.

Lemma sim_deref q h s s' :
  InvC (Some h) [] (heap s) (objs s) (stack s) (nf s) (nt s) ->
  deref h s = Next s' -> rtc (astep q) (view s) (view s').
Proof.
  intros HI. destruct (inv_xr _ _ _ _ _ _ _ HI h eq_refl) as [fr Hfr].
  pose proof (inv_rc _ _ _ _ _ _ _ HI h fr Hfr) as [Hrc Hpos].
  unfold xcount in Hrc. rewrite decide_True in Hrc by done.
  unfold deref. rewrite Hfr. destruct (frc fr) as [|[|n]] eqn:Ern; [lia| |].
  - unfold sref in Hrc. destruct (is_final fr) eqn:Hfin; [|done]. intros [= <-].
    destruct (decide (h ∈ finals (stack s))) as [|Hnf]; [lia|].
    apply rtc_once.
    assert (E : view (push (Drops (fparams fr)) (emit (EDestroy h) (set_heap (delete h (heap s)) s)))
      = emit (EDestroy h) (set_heap (delete h (heap (view s))) (view s))).
    { apply view_eq; try done. cbn. by rewrite fmap_delete. }
    rewrite E. eapply (a_destroy q _ h (norm fr)).
    + by rewrite view_lookup, Hfr.
    + done.
    + cbn. by rewrite finals_kept.
  - intros [= <-].
    assert (E : view (upd h (fr_rc (S n)) s) = view s).
    { apply view_eq; try done. cbn. by apply norm_alter_rc. }
    rewrite E. apply rtc_refl.
Qed.

Lemma sim_drop q x s s' : Good s -> drop_obj x s = Next s' -> rtc (astep q) (view s) (view s').
Proof.
  intros [HI HA]. unfold drop_obj. destruct (objs s !! x) as [o|] eqn:Hx; [|done].
  assert (Hdel : InvC (ohandle o) [] (heap s) (delete x (objs s)) (stack s) (nf s) (nt s)).
  { destruct HI. split; try done.
    - intros y o' h Hy. apply lookup_delete_Some in Hy as [? Hy]. eauto.
    - intros f fr Hf. destruct (inv_rc f fr Hf) as [E ?]. split; [|done]. rewrite E.
      rewrite (refs_delete _ _ _ f Hx). unfold hcount, xcount.
      destruct (decide (None = Some f)); [done|]. destruct (decide (ohandle o = Some f)); lia.
    - intros h Hh. destruct (inv_obj x o h Hx Hh) as (fr & ? & ?). eauto.
    - intros y [o' Hy]. apply lookup_delete_Some in Hy as [? Hy]. eauto. }
  destruct (ohandle o) as [h|] eqn:Hh.
  - intros E. apply (sim_deref q h (set_objs (delete x (objs s)) s)); done.
  - intros [= <-]. apply rtc_refl.
Qed.

(** co_await, started from a state whose top activation is [Run (Co f) c]. *)
Lemma sim_await q f x k c s s' :
  Exec (Co f) s -> await_of c (objs s !! x ≫= ohandle) k ->
  do_await mv f x k s = Next s' ->
  rtc (astep q) (view (push (Run (Co f) c) s)) (view s').
Proof.
  intros [HI HA] Hc. unfold do_await.
  destruct (objs s !! x) as [ob|] eqn:Hx; [|done]. cbn in Hc.
  destruct (inv_act _ _ _ _ _ _ _ HI f) as (ff & Hff & Hfrun); [apply elem_of_list_here|].
  assert (Hnff : f ∉ finals (stack s)).
  { intros Hin. destruct (inv_fin _ _ _ _ _ _ _ HI f Hin) as (fr' & ? & Hfin'). simplify_eq.
    unfold is_final in Hfin'. by rewrite Hfrun in Hfin'. }
  destruct (ohandle ob) as [h|] eqn:Hh.
  - destruct (inv_obj _ _ _ _ _ _ _ HI x ob h Hx Hh) as (fr & Hfr & Hk). rewrite Hfr.
    destruct (is_final fr) eqn:Hfin.
    + destruct (inv_res _ _ _ _ _ _ _ HI h fr Hfr Hfin) as [o Ho].
      rewrite (take_result_spec mv h s fr o) by done. intros [= <-].
      apply rtc_once. eapply eq_ind; [eapply (a_now q _ f c h k _ (norm fr) o); try done|].
      * by rewrite view_lookup; cbn; rewrite Hfr.
      * symmetry. apply view_eq; try done. cbn. by rewrite norm_alter.
    + destruct (okind ob) eqn:Hok.
      * intros [= <-].
        apply rtc_once. eapply eq_ind; [eapply (a_wait q _ f c h k _ (norm fr)); try done|].
        -- by rewrite view_lookup; cbn; rewrite Hfr.
        -- symmetry. apply view_eq; try done. cbn. rewrite !norm_alter by done. done.
      * destruct (fstatus fr) eqn:Hst; try done. intros [= <-].
        apply rtc_once. eapply eq_ind; [eapply (a_wait_lazy q _ f c h k _ (norm fr)); try done|].
        -- intros ->. congruence.
        -- by rewrite view_lookup; cbn; rewrite Hfr.
        -- symmetry. apply view_eq; try done. cbn. rewrite !norm_alter by done. done.
  - destruct (okind ob) eqn:Hok; [|done]. intros [= <-].
    apply rtc_once. eapply eq_ind; [eapply (a_hang q _ f c k); try done|].
    symmetry. apply view_eq; try done. cbn. by rewrite norm_alter.
Qed.

Lemma sim_finish_facts f (s : state) : Exec (Co f) s ->
  ∃ fr, heap s !! f = Some fr ∧ fstatus fr = Running ∧ f ∉ finals (stack s).
Proof.
  intros [HI HA]. destruct (inv_act _ _ _ _ _ _ _ HI f) as (fr & Hf & Hr); [apply elem_of_list_here|].
  exists fr. split_and!; try done.
  intros Hin. destruct (inv_fin _ _ _ _ _ _ _ HI f Hin) as (fr' & ? & Hfin'). simplify_eq.
  unfold is_final in Hfin'. by rewrite Hr in Hfin'.
Qed.

Ltac solve_view := symmetry; apply view_eq; try done; cbn; rewrite ?norm_alter by done; try done.

Lemma sim_user q w p s s' :
  Exec w s -> ctxs s !! nc s = None -> step_user mv w p s = Next s' ->
  rtc (astep q) (view (push (Run w (CUser p)) s)) (view s').
Proof.
  intros HE Hctx. pose proof HE as [HI HA].
  assert (Hnf : heap (view s) !! nf s = None).
  { rewrite view_lookup. destruct (heap s !! nf s) eqn:E; [|done]. exfalso.
    assert (nf s < nf s) by (eapply inv_bf; eauto). lia. }
  assert (Hact : ∀ e p' s1, act_event w p e p' ->
    view s1 = view (emit e (push (Run w (CUser p')) s)) ->
    rtc (astep q) (view (push (Run w (CUser p)) s)) (view s1)).
  { intros e p' s1 Ha ->. apply rtc_once.
    eapply eq_ind; [eapply (a_act q _ w p _ e p'); done|]. solve_view. }
  assert (Hfin : ∀ f o, w = Co f -> (∃ v, p = PRet v ∧ o = Val v) ∨ (∃ e, p = PThrow e ∧ o = Exc e) ->
    finish f o s = Next s' -> rtc (astep q) (view (push (Run w (CUser p)) s)) (view s')).
  { intros f o -> Ho. destruct (sim_finish_facts f s HE) as (fr & Hf & Hr & Hn).
    unfold finish. rewrite Hf. intros [= <-]. apply rtc_once.
    eapply eq_ind; [eapply (a_finish q _ f p o _ (norm fr)); try done|].
    - by rewrite view_lookup; cbn; rewrite Hf.
    - by rewrite finals_kept.
    - solve_view. }
  destruct p as [v|e|o p|k ps body c|x c|c|k c|x c|x y p|x p|x c|vd x c|qq c|qq p]; cbn [step_user].
  - destruct w as [f|n].
    + apply (Hfin f (Val v)); eauto.
    + intros [= <-]. apply rtc_once. eapply eq_ind; [eapply (a_plainret q _ n v); done|]. solve_view.
  - destruct w as [f|n]; [|done]. apply (Hfin f (Exc e)); eauto.
  - intros [= <-]. eapply Hact; [constructor|done].
  - destruct (move_all ps (objs s) (S (nt s))) as [[m ps']|] eqn:Hm; [|done].
    destruct k; intros [= <-]; apply rtc_once.
    + eapply eq_ind; [eapply (a_call q _ w ps body c _ (nt s) ps'); done|]. solve_view.
      by rewrite fmap_insert.
    + eapply eq_ind; [eapply (a_call_lazy q _ w ps body c _ (nt s) ps'); done|]. solve_view.
      by rewrite fmap_insert.
  - destruct w as [f|n]; [|done]. apply sim_await; [done|constructor].
  - destruct w as [f|n]; [|done]. intros [= <-]. apply rtc_once.
    eapply eq_ind; [eapply (a_leafwait q _ f c); done|]. solve_view.
  - intros [= <-]. eapply Hact; [constructor|done].
  - destruct (objs s !! x) as [ob|]; [|done]. intros [= <-]. eapply Hact; [constructor|done].
  - destruct (objs s !! x) as [ox|] eqn:Hx; [|done]. destruct (objs s !! y) as [oy|] eqn:Hy; [|done].
    destruct (decide (x = y)) as [->|Hne].
    { intros [= <-]. eapply Hact; [constructor|done]. }
    assert (HI2 : InvC (ohandle ox) [] (heap s) (<[x:=Obj (okind ox) None]> (objs s))
      (Assign x y :: Run w (CUser p) :: stack s) (nf s) (nt s)).
    { apply inv_neutral; [by split|].
      apply inv_null_obj; [|done]. apply (inv_activation (V:=V) None [] _ _ _ w); try done. by destruct w. }
    destruct (ohandle ox) as [h|] eqn:Hh.
    + intros E. etrans; [|eapply sim_deref; [|exact E]; exact HI2].
      eapply Hact; [constructor|done].
    + intros [= <-]. eapply Hact; [constructor|done].
  - intros E. etrans; [|eapply sim_drop; [|exact E]].
    + eapply Hact; [constructor|done].
    + apply good_user. done.
  - destruct (objs s !! x) as [ob|] eqn:Hx; [|done].
    destruct (ohandle ob) as [h|] eqn:Hh.
    + destruct (inv_obj _ _ _ _ _ _ _ HI x ob h Hx Hh) as (fr & -> & ?).
      intros [= <-]. eapply Hact; [constructor|done].
    + intros [= <-]. eapply Hact; [constructor|done].
  - destruct (objs s !! x) as [ob|] eqn:Hx; [|done].
    intros E. set (s1 := State _ _ _ _ _ _ _ _ _) in E.
    etrans; [|eapply (sim_await q (nf s) x (KWait (nc s)) (CWaitStart (nc s) x (ohandle ob))); [| |exact E]].
    + apply rtc_once.
      eapply eq_ind; [eapply (a_waitcall q _ w vd x c _ (ohandle ob)); done|].
      solve_view. by rewrite fmap_insert.
    + split; [|cbn; by do 2 (constructor; [done|])].
      cbn. apply inv_neutral; [by split|].
      apply (inv_activation (V:=V) None [Co (nf s)] _ _ _ w); try done.
      assert (HI3 : InvC None [Co (nf s); w] (<[nf s:=new_frame KTask Running []]> (heap s))
        (<[nt s:=Obj KTask (Some (nf s))]> (objs s)) (stack s) (S (nf s)) (S (nt s))).
      { eapply inv_new; [exact HI|by left| |lia|lia]. destruct (objs s !! nt s) eqn:E2; [|done]. exfalso.
        assert (nt s < nt s) by (eapply inv_bt; eauto). lia. }
      clear -HI3. destruct HI3.
      assert (Hperm : [Co (nf s); w] ++ actors (stack s) ≡ₚ [w; Co (nf s)] ++ actors (stack s))
        by (cbn; apply Permutation_swap).
      split; try done.
      * intros f fr. rewrite <- Hperm. eauto.
      * intros f. rewrite <- Hperm. eauto.
      * by rewrite <- Hperm.
      * intros q. rewrite <- Hperm. eauto.
    + cbn. rewrite lookup_insert_ne.
      * rewrite Hx. constructor.
      * intros <-. assert (nt s < nt s) by (eapply inv_bt; eauto). lia.
  - intros [= <-]. apply rtc_once. eapply eq_ind; [eapply (a_alive q _ w qq c); done|]. solve_view.
  - intros [= <-]. apply rtc_once. eapply eq_ind; [eapply (a_kill q _ w qq p); done|]. solve_view.
Qed.
Lemma sim_step q s s' :
  Good s -> ctxs s !! nc s = None -> step mv dflt s = Next s' -> rtc (astep q) (view s) (view s').
Proof.
  intros HG Hctx. pose proof HG as [HI HA]. unfold step. destruct (stack s) as [|i st] eqn:Hst; [done|].
  assert (Hs : s = set_stack (stack s) s) by by destruct s.
  destruct i as [w c|h l|l|x y|w vd x i ent c].
  - assert (HE : Exec w (set_stack st s)).
    { split.
      - cbn. unfold Inv in HI. rewrite Hst in HI.
        apply (inv_activation (V:=V) None [] _ _ (Run w c) w) in HI; try done.
        pose proof (inv_plain _ _ _ _ _ _ _ HI) as Hp. by apply Forall_inv in Hp.
      - cbn. exact (ainv_top _ s st HA Hst I (fun H => H)). }
    assert (E : view s = view (push (Run w c) (set_stack st s))).
    { apply view_eq; try done. cbn. by rewrite Hst. }
    rewrite E. unfold step_code. destruct c as [p|i x hd|i o].
    + by apply sim_user.
    + exfalso. pose proof (inv_plain _ _ _ _ _ _ _ HI) as Hp. rewrite Hst in Hp. apply Forall_inv in Hp. by destruct w.
    + destruct w as [f|n]; [|done]. destruct (ctxs _ !! i) eqn:Hc; [|done].
      destruct (sim_finish_facts f _ HE) as (fr & Hf & Hr & Hn).
      unfold finish. cbn [heap set_ctxs]. rewrite Hf. intros [= <-]. apply rtc_once.
      eapply eq_ind; [eapply (a_waitset q _ f i o _ (norm fr)); try done|].
      * rewrite view_lookup. cbn. by cbn in Hf; rewrite Hf.
      * by rewrite finals_kept.
      * solve_view.
  - unfold Inv in HI. rewrite Hst in HI. destruct l as [|a l].
    + intros E. pose proof (inv_fnd _ _ _ _ _ _ _ HI) as Hnd. rewrite finals_cons in Hnd. cbn in Hnd.
      apply NoDup_cons in Hnd as [Hnin _].
      etrans; [apply rtc_once; eapply (a_finalpop q _ h)|].
      * cbn. by rewrite Hst.
      * by rewrite finals_kept.
      * apply inv_final_pop in HI. eapply (sim_deref q h (set_stack st s)) in E; [|exact HI].
        exact E.
    + pose proof (inv_fnd _ _ _ _ _ _ _ HI) as Hnd. rewrite finals_cons in Hnd. cbn in Hnd.
      apply NoDup_cons in Hnd as [Hnin _].
      destruct (inv_wake _ _ _ _ _ _ _ _ _ HI) as (fa & k & fh & o & Ha & Hs' & Hh & Hfin & Hres & Hne & HI').
      rewrite Ha, Hs', Hh.
      rewrite (take_result_spec mv h _ fh o); [|cbn; rewrite lookup_alter_ne by done; exact Hh|done].
      intros [= <-]. apply rtc_once.
      eapply eq_ind; [eapply (a_wake q _ h a l (kept st) (norm fa) k (norm fh) o); try done|].
      * cbn. by rewrite Hst.
      * by rewrite finals_kept.
      * by rewrite view_lookup, Ha.
      * by rewrite view_lookup, Hh.
      * solve_view.
  - destruct l as [|x l].
    + intros [= <-]. assert (E : view s = view (set_stack st s)) by (apply view_eq; try done; cbn; by rewrite Hst).
      rewrite E. apply rtc_refl.
    + intros E. apply (sim_drop q) in E.
      * assert (E2 : view s = view (set_stack (Drops l :: st) s)) by (apply view_eq; try done; cbn; by rewrite Hst).
        rewrite E2. exact E.
      * split.
        -- unfold Inv in *. cbn. rewrite Hst in HI. apply inv_neutral; [by split|].
           eapply inv_neutral; [|exact HI]. by split.
        -- destruct HA as [HA|(ds & x' & y & rest & E' & Hd & Hr & Hne & Hx)].
           ++ left. cbn. rewrite Hst in HA. constructor; [done|]. by eapply asg_free_tail.
           ++ right. cbn. rewrite Hst in E'. destruct ds as [|d ds]; cbn in E'; simplify_eq.
              exists (Drops l :: ds), x', y, rest. split_and!; try done. constructor; [done|]. by eapply Forall_inv_tail.
  - destruct (objs s !! x) as [ox|] eqn:Hx; [|done]. destruct (objs s !! y) as [oy|] eqn:Hy; [|done].
    intros [= <-]. match goal with |- rtc _ ?a ?b => assert (E : a = b) end.
    { apply view_eq; try done. cbn. by rewrite Hst. }
    rewrite E. apply rtc_refl.
  - destruct (ctxs s !! i) as [[o|]|] eqn:Hc; [| |done].
    + intros [= <-]. apply rtc_once.
      eapply eq_ind; [eapply (a_waitret q _ w vd x i ent c (kept st) o)|].
      * cbn. by rewrite Hst.
      * done.
      * solve_view.
    + destruct ent; [done|]. intros [= <-]. apply rtc_once.
      eapply eq_ind; [eapply (a_loop q _ w vd x i c (kept st))|].
      * cbn. by rewrite Hst.
      * done.
      * solve_view.
Qed.
(** Wait contexts have addresses below the allocation counter. *)
Definition CB (s : state) : Prop := ∀ i, is_Some (ctxs s !! i) -> i < nc s.

Lemma cb_same s s' : ctxs s' = ctxs s -> nc s' = nc s -> CB s -> CB s'.
Proof. unfold CB. by intros -> ->. Qed.

Lemma deref_ctxs h (s s' : state) : deref h s = Next s' -> ctxs s' = ctxs s ∧ nc s' = nc s.
Proof. unfold deref. intros. repeat case_match; simplify_eq; done. Qed.
Lemma drop_ctxs h (s s' : state) : drop_obj h s = Next s' -> ctxs s' = ctxs s ∧ nc s' = nc s.
Proof.
  unfold drop_obj. intros. repeat case_match; simplify_eq; [|done].
  match goal with H : deref _ _ = _ |- _ => apply deref_ctxs in H end. done.
Qed.
Lemma await_ctxs f x k (s s' : state) : do_await mv f x k s = Next s' -> ctxs s' = ctxs s ∧ nc s' = nc s.
Proof. unfold do_await, take_result. intros. repeat case_match; simplify_eq; done. Qed.
Lemma finish_ctxs f o (s s' : state) : finish f o s = Next s' -> ctxs s' = ctxs s ∧ nc s' = nc s.
Proof. unfold finish. intros. repeat case_match; simplify_eq; done. Qed.

Lemma cb_user w p s s' : step_user mv w p s = Next s' -> CB s -> CB s'.
Proof.
  intros H Hc.
  destruct p as [v|e|o p|k ps body c|x c|c|k c|x c|x y p|x p|x c|vd x c|qq c|qq p]; cbn [step_user] in H.
  12:{ destruct (objs s !! x) as [ob|]; [|done]. apply await_ctxs in H as [E1 E2]. intros i. rewrite E1, E2.
    cbn. destruct (decide (i = nc s)) as [->|]; [lia|]. rewrite lookup_insert_ne by done.
    intros Hi. specialize (Hc i Hi). lia. }
  all: repeat case_match; simplify_eq.
  all: try match goal with
    | H : deref _ _ = _ |- _ => apply deref_ctxs in H as [? ?]
    | H : drop_obj _ _ = _ |- _ => apply drop_ctxs in H as [? ?]
    | H : do_await _ _ _ _ _ = _ |- _ => apply await_ctxs in H as [? ?]
    | H : finish _ _ _ = _ |- _ => apply finish_ctxs in H as [? ?]
    end.
  all: by eapply cb_same; [| |exact Hc].
Qed.

Lemma cb_step s s' : step mv dflt s = Next s' -> CB s -> CB s'.
Proof.
  unfold step. intros H Hc. destruct (stack s) as [|i st] eqn:Hst; [done|].
  destruct i as [w c|h l|l|x y|w vd x i ent c].
  - unfold step_code in H. destruct c as [p|i x hd|i o].
    + by eapply cb_user.
    + destruct w; [|done]. apply await_ctxs in H as [? ?]. by eapply cb_same; [| |exact Hc].
    + destruct w; [|done]. destruct (ctxs _ !! i) eqn:Hi; [|done]. apply finish_ctxs in H as [E1 E2].
      intros j. rewrite E1, E2. cbn in *. destruct (decide (j = i)) as [->|]; [eauto|].
      rewrite lookup_insert_ne by done. auto.
  - destruct l as [|a l].
    + apply deref_ctxs in H as [? ?]. by eapply cb_same; [| |exact Hc].
    + unfold take_result in H. repeat case_match; simplify_eq; by eapply cb_same; [| |exact Hc].
  - destruct l as [|x l].
    + simplify_eq. done.
    + apply drop_ctxs in H as [? ?]. by eapply cb_same; [| |exact Hc].
  - repeat case_match; simplify_eq; by eapply cb_same; [| |exact Hc].
  - destruct (ctxs s !! i) as [[o|]|] eqn:Hi; [| |done].
    + simplify_eq. intros j [o' Hj]. cbn in *. apply lookup_delete_Some in Hj as [? ?]. eauto.
    + destruct ent; [done|]. simplify_eq. done.
Qed.

Lemma cb_env e s s' : env_step mv dflt e s = Next s' -> CB s -> CB s'.
Proof.
  unfold env_step. intros H Hc. destruct (is_idle mv dflt s); [|done].
  destruct e as [p|f o|qq|].
  - simplify_eq. done.
  - repeat case_match; simplify_eq; done.
  - simplify_eq. done.
  - destruct (stack s) as [|i st]; [by simplify_eq|]. destruct i as [w c|h l|l|x y|w vd x i ent c]; simplify_eq; try done.
    destruct vd; [|done]. simplify_eq. intros j [o' Hj]. cbn in *. apply lookup_delete_Some in Hj as [? ?]. eauto.
Qed.

Lemma idle_view s : is_idle mv dflt s = true -> idle_stack (stack (view s)).
Proof.
  intros H. destruct (idle_shape _ _ _ H) as [E|(w & vd & x & i & c & st & E & _)]; cbn; by rewrite E.
Qed.

Lemma sim_env q e s s' :
  Good s -> (e = EvQuit -> q = true) -> env_step mv dflt e s = Next s' -> rtc (astep q) (view s) (view s').
Proof.
  intros HG Hq. unfold env_step. destruct (is_idle mv dflt s) eqn:Hidle; [|done].
  apply idle_view in Hidle.
  destruct e as [p|f o|qq|].
  - intros [= <-]. apply rtc_once. eapply eq_ind; [eapply (a_handler q _ p); done|]. solve_view.
  - destruct (heap s !! f) as [fr|] eqn:Hf; [|intros [= <-]; apply rtc_refl].
    destruct (fstatus fr) eqn:Hs; intros [= <-]; try apply rtc_refl.
    apply rtc_once. eapply eq_ind; [eapply (a_fire q _ f (norm fr) c o)|].
    + done.
    + by rewrite view_lookup, Hf.
    + done.
    + solve_view.
  - intros [= <-]. apply rtc_once. eapply eq_ind; [eapply (a_envkill q _ qq); done|]. solve_view.
  - destruct (stack s) as [|i st] eqn:Hst; [intros [= <-]; apply rtc_refl|].
    destruct i as [w c|h l|l|x y|w vd x i ent c]; try (intros [= <-]; apply rtc_refl).
    destruct vd; [|done]. intros [= <-]. apply rtc_once.
    eapply eq_ind; [eapply (a_quit q _ w x i ent c (kept st))|].
    + auto.
    + cbn. by rewrite Hst.
    + solve_view.
Qed.

Lemma view_exec q s1 s2 : exec mv dflt q s1 s2 -> Good s1 -> CB s1 ->
  rtc (astep q) (view s1) (view s2) ∧ CB s2.
Proof.
  induction 1 as [s|s s1 s2 Hex IH Hs|s s1 s2 e Hex IH He Hs]; intros HG HC.
  - split; [apply rtc_refl|done].
  - destruct (IH HG HC) as [H1 H2]. split; [|by eapply cb_step].
    etrans; [exact H1|]. apply sim_step; [by eapply good_exec| |done].
    destruct (ctxs s1 !! nc s1) eqn:E; [|done]. assert (nc s1 < nc s1) by (apply H2; eauto). lia.
  - destruct (IH HG HC) as [H1 H2]. split; [|by eapply cb_env].
    etrans; [exact H1|]. eapply sim_env; [by eapply good_exec|done|done].
Qed.

Theorem view_from q qs s : exec mv dflt q (init qs) s -> rtc (astep q) (init qs) (view s).
Proof.
  intros H.
  assert (E : view (init qs) = init qs) by (apply view_eq; try done; cbn; apply fmap_empty).
  rewrite <- E. apply (view_exec q (init qs) s H).
  - by eapply good_init.
  - intros i. cbn. rewrite lookup_empty. by intros [? ?].
Qed.

(** Induction principle for trace invariants. *)
Theorem view_invariant_from q qs (P : state -> Prop) :
  P (init qs) -> (∀ s s', P s -> astep q s s' -> P s') -> ∀ s, exec mv dflt q (init qs) s -> P (view s).
Proof.
  intros H0 Hstep s Hr. apply view_from in Hr.
  remember (init qs) as s0 eqn:E0. clear E0.
  induction Hr as [x|x y z Hxy Hyz IH]; [done|]. eauto.
Qed.

Theorem view_invariant q (P : state -> Prop) :
  (∀ qs, P (init qs)) -> (∀ s s', P s -> astep q s s' -> P s') -> ∀ s, reach mv dflt q s -> P (view s).
Proof. intros H0 Hstep s [qs Hr]. by eapply view_invariant_from. Qed.
End view.
