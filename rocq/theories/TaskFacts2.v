(** * More property lemmas of the Task machine. *)
From stdpp Require Import gmap list.
From Verif Require Import TaskModel TaskInv TaskSafe TaskView TaskSpec TaskTrace TaskWalk TaskLegal TaskMore
  TaskAlive TaskCtx TaskFacts TaskLoop TaskParams.

Section facts.
Context {V : Type} (mv : V -> V) (dflt : V).
Notation state := (state V). Notation item := (item V). Notation frame := (frame V).
Notation event := (event V). Notation code := (code V).
Notation step := (step mv dflt). Notation env_step := (env_step mv dflt).
Notation reach := (reach mv dflt). Notation ub_next := (ub_next mv dflt).
Notation then_run := (then_run dflt). Notation connect_run := (connect_run dflt).
Notation legal_trace := (legal_trace mv). Notation steps := (steps mv dflt).
Notation lev := (@lev V).

Lemma steps_trans s1 s2 s3 : steps s1 s2 -> steps s2 s3 -> steps s1 s3.
Proof. induction 1 as [|s1 s2 s3' H1 H2 IH]; [done|]. intros H. eapply steps_cons; [exact H1|auto]. Qed.
Lemma steps_one s s' : step s = Next s' -> steps s s'.
Proof. intros H. eapply steps_cons; [exact H|apply steps_refl]. Qed.

(** ** C10: move assignment *)
Lemma drops_run n : ∀ s ds st, Good s -> stack s = ds ++ st -> Forall is_drops ds -> 2 * size (objs s) + length ds <= n ->
  ∃ s', steps s s' ∧ ((stack s' = st ∧ objs s' ⊆ objs s ∧ Good s') ∨ step s' = UB UDeadTask).
Proof.
  induction n as [n IH] using lt_wf_ind. intros s ds st HG Hst Hd Hn.
  destruct ds as [|d ds].
  { exists s. split; [apply steps_refl|]. left. done. }
  apply Forall_cons in Hd as [Hd Hds]. destruct d as [|h l|l| |]; try done.
  pose proof (ok_step mv dflt s HG) as Hok.
  destruct (step s) as [s1|r|] eqn:Hs.
  - unfold TaskModel.step in Hs. rewrite Hst in Hs. cbn in Hs. destruct l as [|x l].
    + injection Hs as <-. cbn in Hok.
      destruct (IH (2 * size (objs s) + length ds)) with (s := set_stack (ds ++ st) s) (ds := ds) (st := st)
        as (s' & H1 & H2); [cbn in Hn; lia|done|done|done|done|].
      exists s'. split; [|done]. eapply steps_cons; [|exact H1]. unfold TaskModel.step. by rewrite Hst.
    + assert (Hx : is_Some (objs s !! x)).
      { unfold drop_obj in Hs. cbn in Hs. destruct (objs s !! x); [eauto|done]. }
      destruct Hx as [ox Hx].
      pose proof (drop_shape _ _ _ Hs) as [Ho Hst1]. cbn in Ho, Hst1.
      assert (Hsz : size (objs s) = S (size (objs s1))).
      { rewrite Ho. rewrite <- (insert_delete (objs s) x ox) at 1 by done. rewrite map_size_insert_None; [done|]. apply lookup_delete. }
      assert (Hds1 : ∃ ds1, stack s1 = ds1 ++ st ∧ Forall is_drops ds1 ∧ length ds1 <= S (S (length ds))).
      { destruct Hst1 as [->|[l' ->]].
        - exists (Drops l :: ds). split_and!; [done|by constructor|cbn; lia].
        - exists (Drops l' :: Drops l :: ds). split_and!; [done|by repeat constructor|cbn; lia]. }
      destruct Hds1 as (ds1 & E1 & F1 & Len).
      destruct (IH (2 * size (objs s1) + length ds1)) with (s := s1) (ds := ds1) (st := st)
        as (s' & H1 & H2); [cbn in Hn; lia|done|done|done|done|].
      exists s'. split.
      * eapply steps_cons; [|exact H1]. unfold TaskModel.step. by rewrite Hst.
      * destruct H2 as [(? & Hsub & ?)|?]; [left|by right]. split_and!; [done| |done]. etrans; [exact Hsub|].
        rewrite Ho. apply delete_subseteq.
  - exists s. split; [apply steps_refl|]. right. unfold TaskModel.step in Hs. rewrite Hst in Hs. cbn in Hs.
    cbn in Hok. destruct l as [|x l]; [done|]. unfold drop_obj in Hs. cbn in Hs. 
    unfold TaskModel.step. rewrite Hst. cbn. unfold drop_obj. cbn.
    destruct (objs s !! x) as [ox|]; [|by simplify_eq]. destruct (ohandle ox); [|done].
    unfold deref in *. cbn in *. repeat (case_match; simplify_eq; try done).
  - exfalso. unfold TaskModel.step in Hs. rewrite Hst in Hs. cbn in Hs. destruct l as [|x l]; [done|].
    unfold drop_obj in Hs. cbn in Hs. destruct (objs s !! x) as [ox|]; [|done]. destruct (ohandle ox); [|done].
    unfold deref in Hs. cbn in Hs. repeat (case_match; simplify_eq; try done).
Qed.

Lemma c10_assign q s w x y p st ox oy : reach q s -> stack s = Run w (CUser (PAssign x y p)) :: st -> x ≠ y ->
  objs s !! x = Some ox -> objs s !! y = Some oy ->
  ∃ s', steps s s' ∧
   (step s' = UB UDeadTask ∨
    (stack s' = Run w (CUser p) :: st ∧ objs s' !! x = Some oy ∧ objs s' !! y = Some (Obj (okind oy) None) ∧
     (∀ z, z ≠ x -> z ≠ y -> objs s' !! z = objs s !! z ∨ objs s' !! z = None))).
Proof.
  intros Hr Hst Hne Hx Hy. pose proof (good_reach _ _ _ _ Hr) as HG.
  pose proof (ok_step mv dflt s HG) as Hok.
  assert (Hs : ∃ s1, step s = Next s1 ∧ objs s1 = <[x := Obj (okind ox) None]> (objs s) ∧
    ∃ ds, Forall is_drops ds ∧ stack s1 = ds ++ Assign x y :: Run w (CUser p) :: st).
  { destruct (step s) as [s1|r|] eqn:E.
    - exists s1. split; [done|]. unfold TaskModel.step in E. rewrite Hst in E. cbn in E. rewrite Hx, Hy in E.
      rewrite decide_False in E by done. destruct (ohandle ox).
      + apply deref_shape in E as [Ho Hs1]. cbn in Ho, Hs1. split; [done|]. destruct Hs1 as [->|[l ->]].
        * by exists [].
        * exists [Drops l]. split; [by repeat constructor|done].
      + injection E as <-. cbn. split; [done|]. by exists [].
    - exfalso. unfold TaskModel.step in E. rewrite Hst in E. cbn in E. rewrite Hx, Hy in E.
      rewrite decide_False in E by done. destruct (ohandle ox); [|done].
      unfold deref in E. cbn in E, Hok. repeat (case_match; simplify_eq; try done).
    - exfalso. unfold TaskModel.step in E. rewrite Hst in E. cbn in E. rewrite Hx, Hy in E.
      rewrite decide_False in E by done. destruct (ohandle ox); [|done].
      unfold deref in E. cbn in E, Hok. repeat (case_match; simplify_eq; try done). }
  destruct Hs as (s1 & Hs & Ho & ds & Hds & Hst1). rewrite Hs in Hok. cbn in Hok.
  destruct (drops_run _ s1 ds _ Hok Hst1 Hds (le_n _)) as (s2 & Hss & [(Hst2 & Hsub & HG2)|Hub]).
  2:{ exists s2. split; [by eapply steps_cons|by left]. }
  destruct (objs s2 !! x) as [ox2|] eqn:Hx2; [destruct (objs s2 !! y) as [oy2|] eqn:Hy2|].
  2,3: exists s2; (split; [by eapply steps_cons|left]); unfold TaskModel.step; rewrite Hst2; rewrite ?Hx2, ?Hy2; done.
  assert (oy2 = oy) as ->.
  { pose proof (lookup_weaken _ _ _ _ Hy2 Hsub) as E. rewrite Ho, lookup_insert_ne in E by done. congruence. }
  eexists. split.
  { eapply steps_cons; [exact Hs|]. eapply steps_trans; [exact Hss|]. apply steps_one.
    unfold TaskModel.step. rewrite Hst2, Hx2, Hy2. reflexivity. }
  right. cbn. split_and!; [done|by rewrite lookup_insert|by rewrite lookup_insert_ne, lookup_insert by done|].
  intros z Hzx Hzy. rewrite !lookup_insert_ne by done. destruct (objs s2 !! z) as [oz|] eqn:Hz; [left|by right].
  pose proof (lookup_weaken _ _ _ _ Hz Hsub) as E. rewrite Ho, lookup_insert_ne in E by done. done.
Qed.

(** The common case: the target is empty or its coroutine keeps running / has another owner. *)
Lemma c10_assign_simple q s w x y p st ox oy : reach q s -> stack s = Run w (CUser (PAssign x y p)) :: st -> x ≠ y ->
  objs s !! x = Some ox -> objs s !! y = Some oy ->
  (∀ h fr, ohandle ox = Some h -> heap s !! h = Some fr -> 2 <= frc fr) ->
  ∃ s', steps s s' ∧ stack s' = Run w (CUser p) :: st ∧
     objs s' = <[x := oy]> (<[y := Obj (okind oy) None]> (objs s)) ∧
     trace s' = EAct w AAssign :: trace s ∧
     (∀ f, refs (objs s') f + (if decide (ohandle ox = Some f) then 1 else 0) = refs (objs s) f) ∧
     (∀ f fr, heap s !! f = Some fr -> ∃ fr', heap s' !! f = Some fr' ∧ fstatus fr' = fstatus fr ∧
        fresult fr' = fresult fr ∧ fawaiters fr' = fawaiters fr).
Proof.
  intros Hr Hst Hne Hx Hy Hrc. destruct (good_reach _ _ _ _ Hr) as [HI _].
  assert (Hrefs : ∀ f, refs (<[x := oy]> (<[y := Obj (okind oy) None]> (objs s))) f +
     (if decide (ohandle ox = Some f) then 1 else 0) = refs (objs s) f).
  { intros f. pose proof (refs_insert (objs s) y oy (Obj (okind oy) None) f Hy) as E1.
    assert (Hx' : <[y := Obj (okind oy) None]> (objs s) !! x = Some ox) by by rewrite lookup_insert_ne.
    pose proof (refs_insert _ x ox oy f Hx') as E2. rewrite hcount_none in E1.
    change (if decide (ohandle ox = Some f) then 1 else 0) with (hcount ox f). lia. }
  destruct (ohandle ox) as [h|] eqn:Hh.
  - destruct (inv_obj _ _ _ _ _ _ _ HI x ox h Hx Hh) as (fr & Hf & _). specialize (Hrc h fr eq_refl Hf).
    destruct (frc fr) as [|[|k]] eqn:Ek; [lia|lia|].
    eexists. split.
    { eapply steps_cons.
      { unfold TaskModel.step. rewrite Hst. cbn. rewrite Hx, Hy. rewrite decide_False by done. rewrite Hh.
        unfold deref. cbn. rewrite Hf, Ek. reflexivity. }
      apply steps_one. unfold TaskModel.step. cbn. rewrite lookup_insert. rewrite lookup_insert_ne by done. rewrite Hy.
      reflexivity. }
    cbn. split_and!; [done| |done| |].
    + apply map_eq. intros z. destruct (decide (z = x)) as [->|]; [by rewrite !lookup_insert|].
      rewrite !(lookup_insert_ne _ x) by done. destruct (decide (z = y)) as [->|]; [by rewrite !lookup_insert|].
      by rewrite !lookup_insert_ne by done.
    + intros f. rewrite <- (Hrefs f). f_equal. f_equal. apply map_eq. intros z. destruct (decide (z = x)) as [->|]; [by rewrite !lookup_insert|].
      rewrite !(lookup_insert_ne _ x) by done. destruct (decide (z = y)) as [->|]; [by rewrite !lookup_insert|].
      by rewrite !lookup_insert_ne by done.
    + intros f fr0 Hf0. destruct (decide (f = h)) as [->|].
      * rewrite lookup_alter, Hf0. cbn. eexists. split_and!; done.
      * rewrite lookup_alter_ne by done. eauto.
  - eexists. split.
    { eapply steps_cons.
      { unfold TaskModel.step. rewrite Hst. cbn. rewrite Hx, Hy. rewrite decide_False by done. rewrite Hh. reflexivity. }
      apply steps_one. unfold TaskModel.step. cbn. rewrite lookup_insert. rewrite lookup_insert_ne by done. rewrite Hy.
      reflexivity. }
    cbn. assert (E : <[x:=oy]> (<[y:=Obj (okind oy) None]> (<[x:=Obj (okind ox) None]> (objs s))) =
       <[x := oy]> (<[y := Obj (okind oy) None]> (objs s))).
    { apply map_eq. intros z. destruct (decide (z = x)) as [->|]; [by rewrite !lookup_insert|].
      rewrite !(lookup_insert_ne _ x) by done. destruct (decide (z = y)) as [->|]; [by rewrite !lookup_insert|].
      by rewrite !lookup_insert_ne by done. }
    rewrite E. split_and!; [done|done|done|exact Hrefs|]. intros f fr Hf. eauto.
Qed.

(** ** C11 *)
Lemma c11 q s w x c st ob : reach q s -> stack s = Run w (CUser (PReady x c)) :: st -> objs s !! x = Some ob ->
  ∃ s' b, step s = Next s' ∧ stack s' = Run w (CUser (c b)) :: st ∧
    (b = true <-> ohandle ob = None ∨ ∃ h o, ohandle ob = Some h ∧ EFinish h o ∈ trace s).
Proof.
  intros H Hst Hx. unfold TaskModel.step. rewrite Hst. cbn. rewrite Hx. destruct (ohandle ob) as [h|] eqn:Hh.
  - destruct (good_reach _ _ _ _ H) as [HI _]. destruct (inv_obj _ _ _ _ _ _ _ HI x ob h Hx Hh) as (fr & Hf & _).
    rewrite Hf. eexists _, _. split_and!; [reflexivity|reflexivity|]. split.
    + intros Hfin. right. destruct (frame_finished _ _ _ _ _ _ H Hf Hfin) as [o ?]. eauto.
    + intros [?|(h' & o & [= <-] & Hin)]; [done|]. by eapply finished_frame.
  - eexists _, true. split_and!; [reflexivity|reflexivity|]. split; auto.
Qed.

Lemma exec_trace q s s' : exec mv dflt q s s' -> ∃ l, trace s' = l ++ trace s.
Proof.
  induction 1 as [s|s s1 s2 H [l IH] Hs|s s1 s2 e H [l IH] He Hs].
  - by exists [].
  - assert (∃ l', trace s2 = l' ++ trace s1) as [l' ->]; [|exists (l' ++ l); by rewrite IH, app_assoc].
    destruct (step_adds _ _ _ _ Hs) as [(es & -> & _)|[(w & vd & x & i & ent & c & st & o & _ & _ & ->)|(w & vd & x & i & c & st & _ & _ & ->)]].
    + eauto.
    + by exists [EWaitRet w i o].
    + by exists [ELoop i].
  - assert (∃ l', trace s2 = l' ++ trace s1) as [l' ->]; [|exists (l' ++ l); by rewrite IH, app_assoc].
    assert (Hcase : e = EvQuit ∨ e ≠ EvQuit) by (destruct e; auto).
    destruct Hcase as [->|Hne].
    + unfold TaskModel.env_step in Hs. destruct (is_idle mv dflt s1); [|done].
      destruct (stack s1) as [|it st]; [injection Hs as <-; by exists []|].
      destruct it as [| | | |w vd x i ent c]; try (injection Hs as <-; by exists []).
      destruct vd; [|done]. injection Hs as <-. by exists [EWaitRet w i (Val dflt)].
    + destruct (env_adds mv dflt e s1 s2) as (es & -> & _); [done|done|]. eauto.
Qed.

(** ** C12 *)
Lemma init_silent f (tr : list event) : legal_trace tr -> phase_of f tr = PhInit ∨ phase_of f tr = PhNone ->
  ∀ e, e ∈ tr -> by_actor e ≠ Some (Co f) ∧ e ≠ EStart f.
Proof.
  induction tr as [|e tr IH]; [by intros _ _ ? ?%elem_of_nil|]. intros [He Hl] Hp.
  assert (Hp' : phase_of f tr = PhInit ∨ phase_of f tr = PhNone).
  { destruct e; cbn in Hp, He; try done; repeat match goal with H : context [decide (?a = ?b)] |- _ => destruct (decide (a = b)); [subst|] end;
      try done; try (destruct Hp; done). destruct He. auto. }
  intros e' [->|Hin]%elem_of_cons; [|by apply IH]. split.
  - intros Hby. destruct e; cbn in Hby, He; simplify_eq; cbn in He, Hp; rewrite ?decide_True in Hp by done;
      destruct_and?; destruct Hp, Hp'; congruence.
  - intros ->. cbn in Hp. rewrite decide_True in Hp by done. by destruct Hp.
Qed.

Lemma start_not_init f (tr : list event) : legal_trace tr -> EStart f ∈ tr -> phase_of f tr ≠ PhInit ∧ phase_of f tr ≠ PhNone.
Proof.
  intros Hl Hin. split; intros Hp.
  - destruct (init_silent f tr Hl (or_introl Hp) _ Hin) as [_ ?]. done.
  - destruct (init_silent f tr Hl (or_intror Hp) _ Hin) as [_ ?]. done.
Qed.

Lemma c12 q s f b w l1 l2 : reach q s -> ECreate f KLazy b w ∈ trace s -> trace s = l1 ++ EStart f :: l2 ->
  (∃ g l3, l2 = EWait g f :: l3) ∧ EStart f ∉ l1 ∧ EStart f ∉ l2 ∧ ∀ e, e ∈ l2 -> by_actor e ≠ Some (Co f).
Proof.
  intros H Hc E. pose proof (trace_legal _ _ _ _ H) as Hl. rewrite E in Hl, Hc.
  pose proof (legal_app _ _ _ Hl) as [He Hl2]. cbn in He. destruct He as [Hp Hor].
  split_and!.
  - destruct Hor as [(b' & w' & l' & ->)|(g & l' & -> & _)]; [|eauto].
    assert (Hc' : ECreate f KTask b' w' ∈ l1 ++ EStart f :: ECreate f KTask b' w' :: l').
    { apply elem_of_app. right. right. left. }
    by destruct (created_unique mv _ _ _ _ _ _ _ _ Hl Hc Hc').
  - intros Hin. apply elem_of_list_split in Hin as (a & c & ->). rewrite <- app_assoc in Hl. cbn in Hl.
    pose proof (legal_app _ _ _ Hl) as [He Hl1]. cbn in He. destruct He as [Hp' _].
    destruct (start_not_init f _ Hl1) as [? _]; [|done]. apply elem_of_app. right. left.
  - intros Hin. by destruct (start_not_init f _ Hl2 Hin).
  - intros e Hin. eapply init_silent; eauto.
Qed.

Lemma c12_first q s f x c ob h fr p st : reach q s -> stack s = Run (Co f) (CUser (PAwait x c)) :: st ->
  objs s !! x = Some ob -> okind ob = KLazy -> ohandle ob = Some h -> heap s !! h = Some fr -> fstatus fr = Initial p ->
  ∃ s', step s = Next s' ∧ stack s' = Run (Co h) (CUser p) :: st ∧ trace s' = EStart h :: EWait f h :: trace s.
Proof.
  intros H Hst Hx Hk Hh Hf Hp. unfold TaskModel.step. rewrite Hst. cbn. unfold do_await. cbn. rewrite Hx, Hh, Hf.
  assert (is_final fr = false) as -> by (unfold is_final; by rewrite Hp). rewrite Hk, Hp.
  eexists. split_and!; reflexivity.
Qed.

Lemma c12_unstarted q s f b w fr : reach q s -> ECreate f KLazy b w ∈ trace s -> EStart f ∉ trace s ->
  heap s !! f = Some fr -> ∃ p, b = CUser p ∧ fstatus fr = Initial p.
Proof.
  intros H Hc Hns Hf. pose proof (trace_legal _ _ _ _ H) as Hl.
  assert (Hp : phase_of f (trace s) = PhInit ∨ phase_of f (trace s) = PhNone).
  { clear Hc Hf. induction (trace s) as [|e tr IH]; [by right|]. destruct Hl as [He Hl].
    assert (IH' : phase_of f tr = PhInit ∨ phase_of f tr = PhNone).
    { apply IH; [intros Hin; apply Hns; by right|done]. }
    destruct e; cbn in *; try done; repeat match goal with |- context [decide (?a = ?b)] => destruct (decide (a = b)); [subst|] end; try done; auto;
      try (destruct_and?; destruct IH'; congruence). exfalso. apply Hns. left. }
  rewrite (frame_phase _ _ _ _ _ _ H Hf) in Hp. destruct (fstatus fr) eqn:Es; cbn in Hp; try (by destruct Hp).
  exists p. split; [|done].
  destruct (rw_reach _ _ _ _ H) as [_ HW]. destruct (w_all _ _ _ _ _ HW f _ _ _ Hc) as [HS _].
  cbn in HS. rewrite lookup_fmap, Hf in HS. cbn in HS. rewrite Es in HS. by destruct HS.
Qed.

(** ** The local run of a coroutine *)
Definition at_susp (c : code) : Prop :=
  match c with CUser (PAwait _ _) | CUser (PLeaf _) | CWaitStart _ _ _ => True | _ => False end.

Lemma co_walk q s f k c0 w : reach q s -> ECreate f k c0 w ∈ trace s ->
  ∃ r, cwalk dflt c0 (proj (Co f) (trace s)) r ∧
    (Co f ∉ actors (stack s) -> proj (Co f) (trace s) = [] ∨ match r with None => True | Some c => at_susp c end).
Proof.
  intros H Hc. destruct (rw_reach _ _ _ _ H) as [_ HW]. destruct (good_reach _ _ _ _ H) as [HI _].
  destruct (w_all _ _ _ _ _ HW f _ _ _ Hc) as [HS Hcur]. cbn in HS, Hcur. rewrite lookup_fmap in HS.
  destruct (heap s !! f) as [fr|] eqn:Hf; cbn in HS; [|exists None; split; [done|intros _; by right]].
  destruct (fstatus fr) as [p| |h kk| |cc|] eqn:Es.
  - destruct HS as [-> E]. change (proj (Co f) (trace s) = []) in E. rewrite E. eexists. split; [apply cwalk_nil|]. auto.
  - pose proof (inv_run _ _ _ _ _ _ _ HI f fr Hf Es) as Hin. cbn in Hin.
    assert (∃ c, (Co f, c) ∈ curs (kept (stack s))) as [c Hcc].
    { rewrite <- actors_kept in Hin. clear -Hin. induction (kept (stack s)) as [|i st IH]; [by apply elem_of_nil in Hin|].
      rewrite actors_cons in Hin. apply elem_of_app in Hin as [Hin|Hin].
      - destruct i; cbn in Hin; try (by apply elem_of_nil in Hin); apply elem_of_list_singleton in Hin; subst;
          eexists; rewrite curs_cons; left.
      - destruct (IH Hin) as [c ?]. exists c. rewrite curs_cons. apply elem_of_app. by right. }
    exists (Some c). split; [by apply Hcur|]. intros Hna. by destruct Hna.
  - destruct HS as (c & Hw & Ha). exists (Some c). split; [done|]. intros _. right. by destruct Ha.
  - destruct HS as (c & k' & Hw & Ha). exists (Some c). split; [done|]. intros _. right. by destruct Ha.
  - eexists. split; [exact HS|]. intros _. by right.
  - exists None. split; [done|intros _; by right].
Qed.

Lemma cwalk_user p l r : cwalk dflt (CUser p) l r -> ∃ r', r = CUser <$> r' ∧ walk p l r'.
Proof.
  induction 1 as [|l c e r _ (r' & E & IH) Ha]; [exists (Some p); split; [done|constructor]|].
  destruct r' as [p'|]; [|done]. cbn in E. injection E as ->. inversion Ha; subst.
  eexists. split; [reflexivity|]. by econstructor.
Qed.

Lemma walk_first (p : prog V V) l r : walk p l r ->
  (l = [] ∧ r = Some p) ∨ (∃ e, l = [e] ∧ r = None ∧ adv p e None) ∨
  ∃ e l' p', l = l' ++ [e] ∧ adv p e (Some p') ∧ walk p' l' r.
Proof.
  induction 1 as [|l q e r Hw IH Ha]; [auto|].
  destruct IH as [[-> [= ->]]|[(e0 & -> & ? & ?)|(e0 & l' & p' & -> & Ha' & Hw')]]; [|done|].
  - destruct r as [r|]; [|eauto 10]. right. right. exists e, [], r. split_and!; [done|done|constructor].
  - right. right. exists e0, (e :: l'), p'. split_and!; [done|done|by econstructor].
Qed.

(** [proj_finish]: a coroutine's EFinish event is the last of its local events. *)
Lemma proj_finish f o (tr : list event) : EFinish f o ∈ tr <-> LFinish o ∈ proj (Co f) tr.
Proof.
  unfold proj. rewrite (elem_of_list_In _ (LFinish o)), in_flat_map. split.
  - intros Hin. exists (EFinish f o). split; [by apply elem_of_list_In|]. cbn. rewrite decide_True by done. by left.
  - intros (e & Hin%elem_of_list_In & He%elem_of_list_In). destruct e; cbn in He; try (by apply elem_of_nil in He);
      match type of He with context [decide ?P] => destruct (decide P) end; try (by apply elem_of_nil in He);
      apply elem_of_list_singleton in He; try done. by simplify_eq.
Qed.

(** ** pbind *)
Definition punfold {A} (p : prog V A) : prog V A :=
  match p with
  | PRet a => PRet a | PThrow e => PThrow e | PObs o p => PObs o p | PCall k ps b c => PCall k ps b c
  | PAwait x c => PAwait x c | PLeaf c => PLeaf c | PNull k c => PNull k c | PMove x c => PMove x c
  | PAssign x y p => PAssign x y p | PDrop x p => PDrop x p | PReady x c => PReady x c
  | PWaitFor vd x c => PWaitFor vd x c | PAlive q c => PAlive q c | PKill q p => PKill q p
  end.
Lemma punfold_eq {A} (p : prog V A) : p = punfold p.
Proof. by destruct p. Qed.

Lemma pbind_adv {A} (p : prog V A) (k : A -> prog V V) e r : adv (pbind p k) e r ->
  (∃ a, p = PRet a ∧ adv (k a) e r) ∨ (∃ x, p = PThrow x ∧ e = LFinish (Exc x) ∧ r = None) ∨
  (∃ p', r = Some (pbind p' k) ∧ ∀ o, e ≠ LFinish o).
Proof.
  rewrite (punfold_eq (pbind p k)). destruct p; cbn; intros Ha;
    try (right; right; inversion Ha; subst; eexists; split; [reflexivity|done]).
  - left. exists a. split; [done|]. rewrite (punfold_eq (k a)). exact Ha.
  - right. left. inversion Ha; subst. eauto.
Qed.

Lemma pbind_walk {A} (p : prog V A) (k : A -> prog V V) l r : walk (pbind p k) l r ->
  (∃ p', r = Some (pbind p' k)) ∨ (∃ a l1 l2, l = l1 ++ l2 ∧ l1 ≠ [] ∧ walk (k a) l1 r) ∨
  (∃ x l', l = LFinish (Exc x) :: l' ∧ r = None).
Proof.
  induction 1 as [|l q e r Hw IH Ha]; [left; eauto|].
  destruct IH as [(p' & [= ->])|[(a & l1 & l2 & -> & Hne & Hw')|(x & l' & -> & ?)]]; [| |done].
  - apply pbind_adv in Ha as [(a & -> & Ha)|[(x & -> & -> & ->)|(p'' & -> & _)]].
    + right. left. exists a, [e], l. split_and!; [done|done|]. econstructor; [constructor|done].
    + right. right. eauto.
    + left. eauto.
  - right. left. exists a, (e :: l1), l2. split_and!; [done|done|]. by econstructor.
Qed.

(** ** C16, C17 *)
Lemma walk_throw e l r : walk (PThrow e : prog V V) l r -> (l = [] ∧ r = Some (PThrow e)) ∨ (l = [LFinish (Exc e)] ∧ r = None).
Proof.
  intros Hw. apply walk_first in Hw as [?|[(e' & -> & -> & Ha)|(e' & l' & p' & -> & Ha & Hw)]]; [auto| |by inversion Ha].
  inversion Ha; subst. auto.
Qed.

Lemma then_walk x cb err l r : walk (then_body dflt x cb err) l r ->
  (l = [] ∧ r = Some (then_body dflt x cb err)) ∨ ∃ o l', l = l' ++ [LAwait o] ∧ then_run cb err o l' ∧
    (l' = [] -> ∃ p, r = Some p ∧ ¬ at_susp (CUser p)).
Proof.
  intros Hw. apply walk_first in Hw as [?|[(e & -> & -> & Ha)|(e & l' & p' & -> & Ha & Hw)]]; [auto|by inversion Ha|].
  right. inversion Ha; subst. exists o, l'. split; [done|].
  destruct o as [v|[n|n]]; cbn in *.
  - apply walk_first in Hw as [[-> ->]|[(e & -> & -> & Ha')|(e & l2 & p' & -> & Ha' & Hw)]].
    + split; [by left|]. intros _. eexists. split; [done|]. by intros ?.
    + by inversion Ha'.
    + inversion Ha'; subst. split; [right; eauto|]. by destruct l2.
  - destruct err as [h|].
    + apply walk_first in Hw as [[-> ->]|[(e & -> & -> & Ha')|(e & l2 & p' & -> & Ha' & Hw)]].
      * split; [by left|]. intros _. eexists. split; [done|]. by intros ?.
      * by inversion Ha'.
      * inversion Ha'; subst. split; [right; eauto|]. by destruct l2.
    + apply walk_throw in Hw as [[-> ->]|[-> ->]].
      * split; [by left|]. intros _. eexists. split; [done|]. by intros ?.
      * split; [by right|done].
  - apply walk_throw in Hw as [[-> ->]|[-> ->]].
    + split; [by left|]. intros _. eexists. split; [done|]. by intros ?.
    + split; [by right|done].
Qed.

Lemma c16 q s f k x cb err w : reach q s -> ECreate f k (CUser (then_body dflt x cb err)) w ∈ trace s ->
  proj (Co f) (trace s) = [] ∨
  ∃ o l, proj (Co f) (trace s) = l ++ [LAwait o] ∧ then_run cb err o l ∧ (Co f ∉ actors (stack s) -> l ≠ []).
Proof.
  intros H Hc. destruct (co_walk _ _ _ _ _ _ H Hc) as (r & Hw & Hs). apply cwalk_user in Hw as (r' & -> & Hw).
  apply then_walk in Hw as [[? _]|(o & l & E & Hr & Hn)]; [by left|]. right. exists o, l. split_and!; [done|done|].
  intros Hna Hl. destruct (Hn Hl) as (p & -> & Hp). destruct (Hs Hna) as [E'|?]; [|done].
  rewrite E in E'. by destruct l.
Qed.

Lemma err_result (p : prog V unit) l : walk (pbind p (λ _, PRet dflt)) l None ->
  (∃ l', l = LFinish (Val dflt) :: l') ∨ (∃ e l', l = LFinish (Exc e) :: l').
Proof.
  intros Hw. apply pbind_walk in Hw as [[? ?]|[(a & l1 & l2 & -> & Hne & Hw)|(x & l' & -> & _)]]; [done| |eauto].
  apply walk_first in Hw as [[-> _]|[(e & -> & _ & Ha)|(e & l' & p' & -> & Ha & Hw)]]; [done| |by inversion Ha].
  inversion Ha; subst. left. eauto.
Qed.

Lemma task_cb_result (cb : V -> prog V nat) v l : walk (task_cb cb v) l None ->
  (∃ e l', l = LFinish (Exc e) :: l') ∨ (∃ o t l', l = LFinish o :: LAct (ADrop t) :: LAwait o :: l').
Proof.
  intros Hw. apply pbind_walk in Hw as [[? ?]|[(t & l1 & l2 & -> & Hne & Hw)|(x & l' & -> & _)]]; [done| |eauto].
  apply walk_first in Hw as [[-> _]|[(e & -> & _ & Ha)|(e & l' & p' & -> & Ha & Hw)]]; [done|by inversion Ha|].
  inversion Ha; subst. 
  apply walk_first in Hw as [[_ ?]|[(e & -> & _ & Ha')|(e & l3 & p' & -> & Ha' & Hw)]]; [done|by inversion Ha'|].
  inversion Ha'; subst. right. exists o, t, l2.
  assert (l3 = [LFinish o]) as ->; [|done].
  destruct o; cbn in Hw; apply walk_first in Hw as [[_ ?]|[(e2 & -> & _ & Ha2)|(e2 & l4 & p' & -> & Ha2 & Hw)]];
    try done; inversion Ha2; by subst.
Qed.

(** ** C19 *)
Lemma c19 q s f k x qo cb w : reach q s -> ECreate f k (CUser (connect_body dflt x qo cb)) w ∈ trace s ->
  proj (Co f) (trace s) = [] ∨
  ∃ o l, proj (Co f) (trace s) = l ++ [LAwait o] ∧ connect_run (Co f ∈ actors (stack s)) qo cb o l.
Proof.
  intros H Hc. destruct (co_walk _ _ _ _ _ _ H Hc) as (r0 & Hw0 & Hs). apply cwalk_user in Hw0 as (r & -> & Hw0).
  unfold connect_body in *.
  assert (Hbusy : ∀ p, r = Some p -> proj (Co f) (trace s) ≠ [] -> ¬ at_susp (CUser p) -> Co f ∈ actors (stack s)).
  { intros p -> Hne Hna. destruct (decide (Co f ∈ actors (stack s))) as [?|Hni]; [done|]. exfalso.
    destruct (Hs Hni); done. }
  clear Hs.
  apply walk_first in Hw0 as [[? _]|[(e & _ & _ & Ha)|(e & l & p' & E & Ha & Hw)]]; [by left|by inversion Ha|].
  inversion Ha; subst. right. exists o, l. split; [done|].
  assert (Hne : proj (Co f) (trace s) ≠ []) by (rewrite E; by destruct l).
  clear E Ha H Hc.
  destruct o as [v|[n|n]]; cbn in *.
  2,3: apply walk_throw in Hw as [[-> ->]|[-> ->]]; [left; split; [eapply Hbusy; [done|done|by intros ?]|done]|by right].
  apply walk_first in Hw as [[-> ->]|[(e & -> & -> & Ha)|(e & l2 & p' & -> & Ha & Hw)]]; [|by inversion Ha|].
  { left. split; [|by left]. eapply Hbusy; [done|done|by intros ?]. }
  inversion Ha; subst.
  apply walk_first in Hw as [[-> ->]|[(e & -> & -> & Ha2)|(e & l3 & p' & -> & Ha2 & Hw)]]; [|by inversion Ha2|].
  { left. split; [|by right]. eapply Hbusy; [done|done|by intros ?]. }
  right. inversion Ha2; subst. exists b, l3. split; [by rewrite <- app_assoc|]. destruct b.
  - apply walk_first in Hw as [[-> ->]|[(e & -> & -> & Ha')|(e & l4 & p' & -> & Ha' & Hw)]]; [|by inversion Ha'|].
    + left. split; [|done]. eapply Hbusy; [done|done|by intros ?].
    + inversion Ha'; subst. right. eauto.
  - apply walk_first in Hw as [[-> ->]|[(e & -> & -> & Ha')|(e & l4 & p' & -> & Ha' & Hw)]]; [| |by inversion Ha'].
    + left. split; [|done]. eapply Hbusy; [done|done|by intros ?].
    + inversion Ha'; subst. by right.
Qed.

(** ** Forward execution of then() on a finished task *)
Lemma then_now q s w x cb err c st ob h v o0 : reach q s ->
  stack s = Run w (CUser (then_ref dflt KTask x cb err c)) :: st ->
  objs s !! x = Some ob -> ohandle ob = Some h -> EFinish h o0 ∈ trace s -> result_of mv h (trace s) = Some (Val v) ->
  ∃ s' f t l, steps s s' ∧ stack s' = Run (Co f) (CUser (cb v)) :: Run w (CUser (c t)) :: st ∧
    trace s' = EObs (Co f) (OThen v) :: ENow f h (Val v) :: l ++ trace s ∧ (∀ e, e ∈ l -> by_actor e = Some w ∨ e = EStart f).
Proof.
  intros H Hst Hx Hh Hfin Hres. destruct (good_reach _ _ _ _ H) as [HI _].
  destruct (inv_obj _ _ _ _ _ _ _ HI x ob h Hx Hh) as (fr & Hf & _).
  pose proof (finished_frame _ _ _ _ _ _ _ H Hfin Hf) as Hfi.
  pose proof (frame_result _ _ _ _ _ _ H Hf) as Hr. rewrite Hres in Hr.
  assert (Hxn : x < nt s) by (apply (inv_bt _ _ _ _ _ _ _ HI); eauto).
  assert (Hhn : h < nf s) by (apply (inv_bf _ _ _ _ _ _ _ HI); eauto).
  eexists _, (nf s), (nt s), [EStart (nf s); ECreate (nf s) KTask (CUser (then_body dflt x cb err)) w; EAct w (ACall (nt s) (nf s) [])].
  split_and!.
  - eapply steps_cons.
    { unfold TaskModel.step. rewrite Hst. cbn. reflexivity. }
    eapply steps_cons.
    { unfold TaskModel.step. cbn. unfold do_await. cbn. rewrite lookup_insert_ne by lia. rewrite Hx, Hh.
      rewrite lookup_insert_ne by lia. rewrite Hf, Hfi.
      unfold take_result. cbn. rewrite lookup_insert_ne by lia. rewrite Hf, <- Hr. reflexivity. }
    apply steps_one. unfold TaskModel.step. cbn. reflexivity.
  - reflexivity.
  - reflexivity.
  - intros e Hin. apply elem_of_cons in Hin as [->|Hin]; [by right|]. apply elem_of_cons in Hin as [->|Hin]; [by left|].
    apply elem_of_cons in Hin as [->|Hin]; [by left|]. by apply elem_of_nil in Hin.
Qed.

Lemma then_later q s w x cb err c st ob h : reach q s ->
  stack s = Run w (CUser (then_ref dflt KTask x cb err c)) :: st ->
  objs s !! x = Some ob -> okind ob = KTask -> ohandle ob = Some h -> (∀ o, EFinish h o ∉ trace s) ->
  ∃ s' f t l, steps s s' ∧ stack s' = Run w (CUser (c t)) :: st ∧ trace s' = EWait f h :: l ++ trace s ∧
    ECreate f KTask (CUser (then_body dflt x cb err)) w ∈ l.
Proof.
  intros H Hst Hx Hk Hh Hfin. destruct (good_reach _ _ _ _ H) as [HI _].
  destruct (inv_obj _ _ _ _ _ _ _ HI x ob h Hx Hh) as (fr & Hf & _).
  assert (Hfi : is_final fr = false).
  { destruct (is_final fr) eqn:E; [|done]. destruct (frame_finished _ _ _ _ _ _ H Hf E) as [o ?]. by destruct (Hfin o). }
  assert (Hxn : x < nt s) by (apply (inv_bt _ _ _ _ _ _ _ HI); eauto).
  assert (Hhn : h < nf s) by (apply (inv_bf _ _ _ _ _ _ _ HI); eauto).
  eexists _, (nf s), (nt s), [EStart (nf s); ECreate (nf s) KTask (CUser (then_body dflt x cb err)) w; EAct w (ACall (nt s) (nf s) [])].
  split_and!.
  - eapply steps_cons.
    { unfold TaskModel.step. rewrite Hst. cbn. reflexivity. }
    apply steps_one. unfold TaskModel.step. cbn. unfold do_await. cbn. rewrite lookup_insert_ne by lia. rewrite Hx, Hh.
    rewrite lookup_insert_ne by lia. rewrite Hf, Hfi, Hk. reflexivity.
  - reflexivity.
  - reflexivity.
  - right. left.
Qed.

(** ** C21: the whole run of waitFor() on a finished task *)
Lemma c21 q s w vd x c st ob h o0 : reach q s -> stack s = Run w (CUser (PWaitFor vd x c)) :: st ->
  objs s !! x = Some ob -> ohandle ob = Some h -> EFinish h o0 ∈ trace s ->
  ∃ s' o l, steps s s' ∧ stack s' = Run w (CUser (c o)) :: st ∧ trace s' = l ++ trace s ∧
    result_of mv h (trace s) = Some o ∧ ∀ i, ELoop i ∉ l.
Proof.
  intros H Hst Hx Hh Hfin. destruct (good_reach _ _ _ _ H) as [HI _].
  destruct (inv_obj _ _ _ _ _ _ _ HI x ob h Hx Hh) as (fr & Hf & _).
  pose proof (finished_frame _ _ _ _ _ _ _ H Hfin Hf) as Hfi.
  pose proof (frame_result _ _ _ _ _ _ H Hf) as Hr.
  destruct (inv_res _ _ _ _ _ _ _ HI h fr Hf Hfi) as [o Ho]. rewrite Ho in Hr.
  assert (Hxn : x < nt s) by (apply (inv_bt _ _ _ _ _ _ _ HI); eauto).
  assert (Hhn : h < nf s) by (apply (inv_bf _ _ _ _ _ _ _ HI); eauto).
  eexists _, o, [EWaitRet w (nc s) o; EDestroy (nf s); EFinish (nf s) (Val dflt); ENow (nf s) h o; EStart (nf s);
    ECreate (nf s) KTask (CWaitStart (nc s) x (Some h)) w; EWaitCall w (nc s) (nf s) (Some h)].
  split_and!; [| | |exact Hr|].
  - eapply steps_cons.
    { unfold TaskModel.step. rewrite Hst. cbn. rewrite Hx. unfold do_await. cbn. rewrite lookup_insert_ne by lia. rewrite Hx, Hh.
      rewrite lookup_insert_ne by lia. rewrite Hf, Hfi. unfold take_result. cbn. rewrite lookup_insert_ne by lia.
      rewrite Hf, Ho. cbn. reflexivity. }
    eapply steps_cons.
    { unfold TaskModel.step. cbn. rewrite lookup_insert. unfold finish. cbn. rewrite lookup_alter_ne, lookup_insert by lia. reflexivity. }
    eapply steps_cons.
    { unfold TaskModel.step. cbn. unfold deref. cbn. rewrite lookup_alter, lookup_alter_ne, lookup_insert by lia. cbn. reflexivity. }
    eapply steps_cons.
    { unfold TaskModel.step. cbn. unfold drop_obj. cbn. rewrite lookup_insert. cbn. unfold deref. cbn.
      rewrite !lookup_alter, lookup_alter_ne, lookup_insert by lia. cbn. reflexivity. }
    eapply steps_cons; [unfold TaskModel.step; cbn; reflexivity|].
    eapply steps_cons; [unfold TaskModel.step; cbn; reflexivity|].
    apply steps_one. unfold TaskModel.step. cbn. rewrite lookup_insert. reflexivity.
  - reflexivity.
  - reflexivity.
  - intros i Hin. repeat (apply elem_of_cons in Hin as [?|Hin]; [done|]). by apply elem_of_nil in Hin.
Qed.

(** ** Corollaries used in PropsTask.v *)
Lemma c06_copy q s h : (∀ v, mv v = v) -> reach q s -> ∀ o, EFinish h o ∈ trace s ->
  ∀ x, x ∈ deliveries h (trace s) -> x = o.
Proof.
  intros Hm H o Ho x [i Hx]%elem_of_list_lookup. rewrite (c05 mv dflt q s h H _ Ho i x Hx).
  destruct o as [v|e]; [|by rewrite iter_consumed_exc]. rewrite iter_consumed_val. f_equal.
  clear -Hm. induction i as [|i IH]; [done|]. change (mv (Nat.iter i mv v) = v). by rewrite Hm.
Qed.

Lemma c10_move' q s w x c st ob : reach q s -> stack s = Run w (CUser (PMove x c)) :: st -> objs s !! x = Some ob ->
  ∃ s' t, step s = Next s' ∧ stack s' = Run w (CUser (c t)) :: st ∧ heap s' = heap s ∧ objs s !! t = None ∧
    objs s' !! t = Some ob ∧ objs s' !! x = Some (Obj (okind ob) None) ∧
    (∀ y, y ≠ x -> y ≠ t -> objs s' !! y = objs s !! y) ∧ ∀ f, refs (objs s') f = refs (objs s) f.
Proof.
  intros H Hst Hx. destruct (good_reach _ _ _ _ H) as [HI _].
  assert (Hn : objs s !! nt s = None).
  { destruct (objs s !! nt s) eqn:E; [|done]. exfalso.
    assert (nt s < nt s) by (apply (inv_bt _ _ _ _ _ _ _ HI); eauto). lia. }
  destruct (c10_move mv dflt s w x c st ob Hst Hx Hn) as (s' & ? & ? & ? & ? & ? & ? & ?).
  exists s', (nt s). split_and!; done.
Qed.

Lemma c11_stable q s s' h o : exec mv dflt q s s' -> EFinish h o ∈ trace s -> EFinish h o ∈ trace s'.
Proof. intros H Hin. destruct (exec_trace _ _ _ H) as [l ->]. apply elem_of_app. by right. Qed.

Lemma c12_await q s f x c ob h b w st : reach q s -> stack s = Run (Co f) (CUser (PAwait x c)) :: st ->
  objs s !! x = Some ob -> ohandle ob = Some h -> ECreate h KLazy b w ∈ trace s -> EStart h ∉ trace s ->
  ∃ s' p, b = CUser p ∧ step s = Next s' ∧ stack s' = Run (Co h) (CUser p) :: st ∧
    trace s' = EStart h :: EWait f h :: trace s.
Proof.
  intros H Hst Hx Hh Hc Hns. destruct (good_reach _ _ _ _ H) as [HI _].
  destruct (inv_obj _ _ _ _ _ _ _ HI x ob h Hx Hh) as (fr & Hf & Hk).
  destruct (c12_unstarted _ _ _ _ _ _ H Hc Hns Hf) as (p & -> & Hp).
  pose proof (inv_lazy _ _ _ _ _ _ _ HI h fr p Hf Hp) as Hkl. rewrite Hk in Hkl.
  destruct (c12_first _ _ _ _ _ _ _ _ _ _ H Hst Hx Hkl Hh Hf Hp) as (s' & ? & ? & ?). eauto 10.
Qed.

(** Every recorded call is followed by the creation of its coroutine. *)
Definition call_ok (tr : list event) : Prop :=
  ∀ w t f ps, EAct w (ACall t f ps) ∈ tr -> ∃ k b w2, ECreate f k b w2 ∈ tr.

Lemma call_created q s w t f ps : reach q s -> EAct w (ACall t f ps) ∈ trace s -> ∃ k b w2, ECreate f k b w2 ∈ trace s.
Proof.
  intros H. enough (call_ok (trace (view s))) as G by (apply G). revert s H.
  apply (view_invariant mv dflt q (λ s, call_ok (trace s))).
  - intros qs ? ? ? ? ?%elem_of_nil. done.
  - intros s1 s2 IH Hs w0 t0 f0 ps0.
    assert (G : ∀ es, Forall (λ e : event, match e with EAct _ (ACall _ _ _) => False | _ => True end) es ->
       EAct w0 (ACall t0 f0 ps0) ∈ es ++ trace s1 -> ∃ k b w2, ECreate f0 k b w2 ∈ es ++ trace s1).
    { intros es Hes [Hin|Hin]%elem_of_app; [rewrite Forall_forall in Hes; by specialize (Hes _ Hin)|].
      destruct (IH _ _ _ _ Hin) as (k & b & w2 & ?). exists k, b, w2. apply elem_of_app. by right. }
    destruct Hs; cbn;
      try (match goal with |- _ ∈ ?t -> _ => match t with
        | trace _ => apply (G []) | ?a :: trace _ => apply (G [a]) | ?a :: ?b :: trace _ => apply (G [a; b])
        | ?a :: ?b :: ?c :: trace _ => apply (G [a; b; c]) end end;
        try (match goal with H : act_event _ _ _ _ |- _ => destruct H end); by repeat constructor).
    + intros Hin. apply elem_of_cons in Hin as [?|Hin]; [done|]. apply elem_of_cons in Hin as [?|Hin]; [done|].
      apply elem_of_cons in Hin as [E|Hin].
      * injection E as -> -> -> ->. do 3 eexists. right. left.
      * destruct (IH _ _ _ _ Hin) as (k' & b' & w2 & ?). exists k', b', w2. by repeat right.
    + intros Hin. apply elem_of_cons in Hin as [?|Hin]; [done|].
      apply elem_of_cons in Hin as [E|Hin].
      * injection E as -> -> -> ->. do 3 eexists. left.
      * destruct (IH _ _ _ _ Hin) as (k' & b' & w2 & ?). exists k', b', w2. by repeat right.
Qed.

Lemma c18_alive q s w t f ps p : reach q s -> EAct w (ACall t f ps) ∈ trace s -> p ∈ ps ->
  EDestroy f ∉ trace s -> (∀ w', EAct w' (ADrop p) ∉ trace s) -> is_Some (objs s !! p).
Proof.
  intros H Hc Hp Hd Hnd. pose proof (p_reach _ _ _ _ H) as HP. destruct (p_call _ _ _ _ _ _ HP _ _ _ _ Hc) as [Hlt Hm].
  destruct (hpar (heap s) f) as [l|] eqn:E.
  - subst l. destruct (p_obj _ _ _ _ _ _ HP _ _ _ E Hp) as [?|[w' ?]]; [done|]. by destruct (Hnd w').
  - exfalso. apply Hd. unfold hpar in E. destruct (heap s !! f) eqn:Ef; [done|].
    destruct (no_frame_phase _ _ _ _ _ H Ef) as [Hph|Hph]; [|by apply gone_destroyed].
    exfalso. destruct (call_created _ _ _ _ _ _ H Hc) as (k & b & w2 & Hcr).
    by eapply (phase_created mv); [eapply trace_legal; exact H|exact Hcr|].
Qed.

Lemma c18_released q s w t f ps p : reach q s -> EAct w (ACall t f ps) ∈ trace s -> p ∈ ps ->
  EDestroy f ∈ trace s -> stack s = [] -> objs s !! p = None.
Proof.
  intros H Hc Hp Hd Hst. pose proof (p_reach _ _ _ _ H) as HP. destruct (p_call _ _ _ _ _ _ HP _ _ _ _ Hc) as [Hlt Hm].
  unfold hpar in Hm. destruct (heap s !! f) as [fr|] eqn:Ef.
  - exfalso. pose proof (trace_legal _ _ _ _ H) as Hl. apply (phase_gone mv) in Hd; [|done].
    rewrite (frame_phase _ _ _ _ _ _ H Ef) in Hd. by destruct (fstatus fr).
  - cbn in Hm. destruct (Hm p Hp) as [_ [?|Hin]]; [done|]. rewrite Hst in Hin. by apply elem_of_nil in Hin.
Qed.

Lemma c19_alive q qs s : exec mv dflt q (init qs) s -> alive_trace qs (trace s).
Proof. intros H. by destruct (alive_reach _ _ _ _ _ H). Qed.

Lemma wait_app q (l1 l2 : list event) : wait_trace q (l1 ++ l2) -> wait_trace q l2.
Proof. induction l1 as [|e l1 IH]; [done|]. intros [_ H]. auto. Qed.

Lemma delivered_in f h o (tr : list event) : delivered f h o tr -> ∃ n, deliveries h tr !! n = Some o.
Proof.
  assert (G : ∀ e, (e = EWake f h o ∨ e = ENow f h o) -> e ∈ tr -> ∃ n, deliveries h tr !! n = Some o).
  { intros e He. induction tr as [|e' tr IH]; [by intros ?%elem_of_nil|]. intros [<-|Hin]%elem_of_cons.
    - exists (length (deliveries h tr)). destruct He as [-> | ->]; cbn; rewrite decide_True by done;
        rewrite lookup_app_r by lia; by rewrite Nat.sub_diag.
    - destruct (IH Hin) as [n Hn]. exists n.
      destruct e'; cbn; try done; destruct (decide _); try done; by apply lookup_app_l_Some. }
  intros [H|H]; [exact (G _ (or_introl eq_refl) H)|exact (G _ (or_intror eq_refl) H)].
Qed.

Lemma c20 s w i o l1 l2 : reach false s -> trace s = l1 ++ EWaitRet w i o :: l2 ->
  ∃ f h o' n, EWaitCall w i f (Some h) ∈ l2 ∧ EFinish h o' ∈ l2 ∧ deliveries h l2 !! n = Some o ∧
    o = Nat.iter n (consumed mv) o'.
Proof.
  intros H E. pose proof (wait_trace_reach _ _ _ _ H) as Hw. rewrite E in Hw. apply wait_app in Hw as [Hw _].
  destruct (Hw eq_refl) as (f & h & Hc & Hd). pose proof (trace_legal _ _ _ _ H) as Hl. rewrite E in Hl.
  apply legal_app in Hl as [_ Hl]. destruct (delivered_in _ _ _ _ Hd) as [n Hn].
  pose proof (result_deliveries mv h l2 Hl) as Hr. destruct (result_of mv h l2) as [r|].
  - destruct Hr as (o' & Hin & _ & Hi). exists f, h, o', n. split_and!; [done|done|done|]. eauto.
  - destruct Hr as [Hr _]. by rewrite Hr in Hn.
Qed.

Lemma c21_loop q s i l1 l2 : reach q s -> trace s = l1 ++ ELoop i :: l2 ->
  ∃ w f hd, EWaitCall w i f hd ∈ l2 ∧ ∀ h o, hd = Some h -> EFinish h o ∉ l2.
Proof.
  intros H E. pose proof (wait_trace_reach _ _ _ _ H) as Hw. rewrite E in Hw. by apply wait_app in Hw as [Hw _].
Qed.
End facts.
