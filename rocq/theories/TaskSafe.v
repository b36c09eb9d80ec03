(** * The invariant holds in every reachable state; consequences for memory safety. *)
From stdpp Require Import gmap list.
From Verif Require Import TaskModel TaskInv.

Section safe.
Context {V : Type} (mv : V -> V) (dflt : V).
Notation state := (state V). Notation item := (item V). Notation frame := (frame V).
Notation step := (step mv dflt). Notation env_step := (env_step mv dflt).

Definition not_asg (i : item) : Prop := match i with Assign _ _ => False | _ => True end.
Definition is_drops (i : item) : Prop := match i with Drops _ => True | _ => False end.
Definition asg_free (st : list item) : Prop := Forall not_asg st.

(** A pending second half of a move assignment is only below destructor calls, and its target is empty. *)
Definition AInv (s : state) : Prop :=
  asg_free (stack s) ∨
  ∃ ds x y rest, stack s = ds ++ Assign x y :: rest ∧ Forall is_drops ds ∧ asg_free rest ∧ x ≠ y ∧
    ∀ o, objs s !! x = Some o -> ohandle o = None.

Definition Good (s : state) : Prop := Inv s ∧ AInv s.

Definition user_ub (r : ub) : Prop :=
  match r with
  | UDeadTask | UNotCoroutine | UUncaught | ULazyNull | ULazyReawait | UDanglingCtx | UEmptyOptional => True
  | _ => False
  end.

Definition ok_res (r : res V) : Prop :=
  match r with Next s' => Good s' | UB r => user_ub r | Idle => True end.

Lemma drops_not_asg ds : Forall is_drops ds -> asg_free ds.
Proof. intros H. eapply Forall_impl; [exact H|]. by intros []. Qed.

(** Effect of deref on the fields relevant to AInv. *)
Lemma deref_shape h (s s' : state) : deref h s = Next s' ->
  objs s' = objs s ∧ (stack s' = stack s ∨ ∃ l, stack s' = Drops l :: stack s).
Proof.
  unfold deref. destruct (heap s !! h) as [fr|]; [|done].
  destruct (frc fr) as [|[|n]]; [done| |].
  - destruct (is_final fr); [|done]. intros [= <-]. cbn. eauto.
  - intros [= <-]. cbn. eauto.
Qed.

Lemma drop_shape x (s s' : state) : drop_obj x s = Next s' ->
  objs s' = delete x (objs s) ∧ (stack s' = stack s ∨ ∃ l, stack s' = Drops l :: stack s).
Proof.
  unfold drop_obj. destruct (objs s !! x) as [o|]; [|done]. destruct (ohandle o) as [h|].
  - intros H. apply deref_shape in H as [? ?]. done.
  - intros [= <-]. cbn. eauto.
Qed.

Lemma ainv_drops (s s' : state) :
  AInv s -> (objs s' ⊆ objs s) -> (stack s' = stack s ∨ ∃ l, stack s' = Drops l :: stack s) -> AInv s'.
Proof.
  intros Ha Ho Hs. destruct Ha as [Ha|(ds & x & y & rest & E & Hd & Hr & Hne & Hx)].
  - left. destruct Hs as [->|[l ->]]; [done|]. by constructor.
  - right. destruct Hs as [->|[l ->]].
    + exists ds, x, y, rest. split_and!; try done. intros o Hox. eapply Hx, lookup_weaken; eauto.
    + exists (Drops l :: ds), x, y, rest. rewrite E. split_and!; try done; [by constructor|].
      intros o Hox. eapply Hx, lookup_weaken; eauto.
Qed.

Lemma ok_deref h (s : state) :
  InvC (Some h) [] (heap s) (objs s) (stack s) (nf s) (nt s) -> AInv s -> ok_res (deref h s).
Proof.
  intros HI HA. destruct (inv_deref h [] s HI) as (s' & E & HI'). rewrite E. split; [done|].
  apply deref_shape in E as [Ho Hs]. eapply ainv_drops; eauto. by rewrite Ho.
Qed.

Lemma ok_drop x (s : state) : Good s -> ok_res (drop_obj x s).
Proof.
  intros [HI HA]. destruct (inv_drop x [] s HI) as [(s' & E & HI')|E]; rewrite E; [|done].
  split; [done|]. apply drop_shape in E as [Ho Hs]. eapply ainv_drops; eauto. rewrite Ho. apply delete_subseteq.
Qed.

(** State with one activation taken off the stack. *)
Definition Exec (w : actor) (s : state) : Prop :=
  InvC None [w] (heap s) (objs s) (stack s) (nf s) (nt s) ∧ asg_free (stack s).

Lemma good_run w c (s : state) : plain_ok (Run w c) ->
  Exec w s -> Good (push (Run w c) s).
Proof.
  intros Hp [HI HA]. split.
  - unfold Inv. cbn. by apply (inv_activation (V:=V) None [] _ _ (Run w c) w).
  - left. cbn. by constructor.
Qed.

Lemma good_user w p (s : state) : Exec w s -> Good (push (Run w (CUser p)) s).
Proof. apply good_run. by destruct w. Qed.

Lemma kapply_ok f (k : kont V) o : plain_ok (Run (Co f) (kapply k o)).
Proof. by destruct k. Qed.

Lemma ok_finish f o (s : state) : Exec (Co f) s -> ok_res (finish f o s).
Proof.
  intros [HI HA]. unfold finish.
  destruct (inv_act _ _ _ _ _ _ _ HI f) as (fr & Hf & _); [apply elem_of_list_here|].
  rewrite Hf. split.
  - unfold Inv. cbn. by apply inv_finish.
  - left. cbn. by constructor.
Qed.

Lemma take_result_spec h (s : state) fr o : heap s !! h = Some fr -> fresult fr = Some o ->
  take_result mv h s = (Some o, upd h (fr_result (Some (consumed mv o))) s).
Proof. intros H1 H2. unfold take_result. by rewrite H1, H2. Qed.

Lemma ok_await f x k (s : state) : Exec (Co f) s -> ok_res (do_await mv f x k s).
Proof.
  intros [HI HA]. unfold do_await.
  destruct (objs s !! x) as [ob|] eqn:Hx; [|done].
  destruct (ohandle ob) as [h|] eqn:Hh.
  - destruct (inv_obj _ _ _ _ _ _ _ HI x ob h Hx Hh) as (fr & Hfr & Hk). rewrite Hfr.
    destruct (is_final fr) eqn:Hfin.
    + destruct (inv_res _ _ _ _ _ _ _ HI h fr Hfr Hfin) as [o Ho].
      rewrite (take_result_spec h s fr o) by done.
      apply good_run; [apply kapply_ok|]. split; [|done]. cbn. by eapply inv_result.
    + pose proof (inv_register _ _ _ _ _ _ _ f h fr k HI Hfr Hfin) as HI'.
      destruct (okind ob) eqn:Hok.
      * split; [exact HI'|by left].
      * destruct (fstatus fr) eqn:Hst; try done.
        apply good_user. split; [|done]. cbn.
        assert (Hhf : h ≠ f).
        { intros ->. destruct (inv_act _ _ _ _ _ _ _ HI f) as (fr' & Hf & Hr); [apply elem_of_list_here|].
          congruence. }
        eapply inv_resume_simple.
        -- exact HI'.
        -- rewrite lookup_alter_ne by done. rewrite lookup_alter, Hfr. done.
        -- cbn. by rewrite Hst.
        -- cbn. by rewrite Hst.
  - destruct (okind ob); [|done]. split; [|by left]. cbn. unfold Inv. cbn.
    by apply inv_suspend_simple.
Qed.

Lemma ok_user w p (s : state) : Exec w s -> ok_res (step_user mv w p s).
Proof.
  intros HE. pose proof HE as [HI HA].
  assert (Hfresh : objs s !! nt s = None).
  { destruct (objs s !! nt s) eqn:E; [|done]. exfalso.
    assert (nt s < nt s) by (eapply inv_bt; eauto). lia. }
  assert (Hpost : ∀ p0 s', heap s' = heap s -> objs s' = objs s -> stack s' = stack s -> nf s' = nf s ->
    nt s' = nt s -> Good (push (Run w (CUser p0)) s')).
  { intros p0 s' E1 E2 E3 E4 E5. apply good_user. unfold Exec. by rewrite E1, E2, E3, E4, E5. }
  destruct p as [v|e|o p|k ps body c|x c|c|k c|x c|x y p|x p|x c|vd x c|q c|q p]; cbn [step_user].
  - destruct w as [f|n]; [by apply ok_finish|]. split; [|by left].
    destruct HI as [I1 I2 I3 I4 I5 I6 I7 I8 I9 I9' I10 I11 I12 I13 I14 I15 I16 I17].
    cbn [app] in *. split; cbn [app]; try done.
    + intros f fr Hf Hr. pose proof (I6 f fr Hf Hr) as Hin. apply elem_of_cons in Hin as [?|?]; done.
    + intros f Hf. apply I7. by apply elem_of_list_further.
    + by apply NoDup_cons in I8 as [_ ?].
    + intros q Hq. apply I16. by apply elem_of_list_further.
  - destruct w as [f|n]; [by apply ok_finish|done].
  - by apply Hpost.
  - destruct (move_all ps (objs s) (S (nt s))) as [[m ps']|] eqn:Hm; [|done].
    apply move_all_spec in Hm as (Hr & Hb & Hsame & _ & Hob & Hlen & Hl).
    2:{ intros y Hy. assert (y < nt s) by (by eapply inv_bt). lia. }
    assert (HI2 : InvC None [w] (heap s) m (stack s) (nf s) (S (nt s) + length ps)).
    { eapply inv_objs; eauto. intros y o h Hy Ho. destruct (Hob y o Hy) as [?|?]; [congruence|done]. }
    assert (Hfr2 : m !! nt s = None).
    { destruct (m !! nt s) eqn:E; [|done]. exfalso.
      assert (is_Some (objs s !! nt s)) as [? ?] by (apply Hsame; [lia|eauto]). congruence. }
    destruct k; cbn.
    + split; [|left; cbn; by do 2 (constructor; [done|])].
      unfold Inv. cbn.
      apply (inv_activation (V:=V) None [] _ _ _ (Co (nf s))); try done.
      apply (inv_activation (V:=V) None [Co (nf s)] _ _ _ w); try done; [by destruct w|].
      assert (HI3 : InvC None [Co (nf s); w] (<[nf s:=new_frame KTask Running ps']> (heap s))
        (<[nt s:=Obj KTask (Some (nf s))]> m) (stack s) (S (nf s)) (S (nt s) + length ps)).
      { eapply inv_new; eauto; lia. }
      clear -HI3. destruct HI3.
      assert (Hperm : [Co (nf s); w] ++ actors (stack s) ≡ₚ [w; Co (nf s)] ++ actors (stack s))
        by (cbn; apply Permutation_swap).
      split; try done.
      * intros f fr. rewrite <- Hperm. eauto.
      * intros f. rewrite <- Hperm. eauto.
      * by rewrite <- Hperm.
      * intros q. rewrite <- Hperm. eauto.
    + split; [|left; cbn; by (constructor; [done|])].
      unfold Inv. cbn. apply (inv_activation (V:=V) None [] _ _ _ w); try done; [by destruct w|].
      eapply inv_new; [exact HI2|right; eauto|done|lia|lia].
  - destruct w as [f|n]; [by apply ok_await|done].
  - destruct w as [f|n]; [|done]. split; [|by left]. unfold Inv. cbn. by apply inv_suspend_simple.
  - apply good_user. split; [|done]. cbn. eapply inv_objs; eauto.
    + intros f. rewrite refs_insert_fresh by done. by rewrite hcount_none.
    + intros y o h Hy Ho. destruct (decide (y = nt s)) as [->|].
      * rewrite lookup_insert in Hy. by simplify_eq/=.
      * rewrite lookup_insert_ne in Hy by done. eauto.
    + intros y [o Hy]. destruct (decide (y = nt s)) as [->|]; [lia|].
      rewrite lookup_insert_ne in Hy by done. assert (y < nt s) by (eapply inv_bt; eauto). lia.
  - destruct (objs s !! x) as [ob|] eqn:Hx; [|done].
    apply good_user. split; [|done]. cbn. assert (x ≠ nt s) by congruence. eapply inv_objs; eauto.
    + intros f. rewrite refs_insert_fresh by (rewrite lookup_insert_ne by done; done).
      pose proof (refs_insert (objs s) x ob (Obj (okind ob) None) f Hx) as E. rewrite hcount_none in E. lia.
    + intros y o h Hy Ho. destruct (decide (y = nt s)) as [->|].
      * rewrite lookup_insert in Hy. simplify_eq/=. eauto.
      * rewrite lookup_insert_ne in Hy by done. destruct (decide (y = x)) as [->|].
        -- rewrite lookup_insert in Hy. by simplify_eq/=.
        -- rewrite lookup_insert_ne in Hy by done. eauto.
    + intros y [o Hy]. destruct (decide (y = nt s)) as [->|]; [lia|].
      rewrite lookup_insert_ne in Hy by done.
      assert (is_Some (objs s !! y)).
      { destruct (decide (y = x)) as [->|]; [eauto|]. rewrite lookup_insert_ne in Hy by done. eauto. }
      assert (y < nt s) by (eapply inv_bt; eauto). lia.
  - destruct (objs s !! x) as [ox|] eqn:Hx; [|done]. destruct (objs s !! y) as [oy|] eqn:Hy; [|done].
    destruct (decide (x = y)) as [->|Hne]; [by apply Hpost|].
    assert (HI2 : InvC (ohandle ox) [] (heap s) (<[x:=Obj (okind ox) None]> (objs s))
      (Assign x y :: Run w (CUser p) :: stack s) (nf s) (nt s)).
    { apply inv_neutral; [by split|].
      apply inv_null_obj; [|done]. apply (inv_activation (V:=V) None [] _ _ _ w); try done. by destruct w. }
    assert (HA2 : AInv (set_objs (<[x:=Obj (okind ox) None]> (objs s))
      (push (Assign x y) (push (Run w (CUser p)) (emit (EAct w AAssign) s))))).
    { right. exists [], x, y, (Run w (CUser p) :: stack s). cbn. split_and!; try done.
      - by constructor.
      - intros o. rewrite lookup_insert. intros [= <-]. done. }
    destruct (ohandle ox) as [h|] eqn:Hh.
    + apply ok_deref; done.
    + split; done.
  - apply ok_drop. apply Hpost; done.
  - destruct (objs s !! x) as [ob|] eqn:Hx; [|done].
    destruct (ohandle ob) as [h|] eqn:Hh; [|by apply Hpost].
    destruct (inv_obj _ _ _ _ _ _ _ HI x ob h Hx Hh) as (fr & -> & ?). by apply Hpost.
  - destruct (objs s !! x) as [ob|] eqn:Hx; [|done].
    apply ok_await. split; [|cbn; by do 2 (constructor; [done|])].
    cbn. apply inv_neutral; [by split|].
    apply (inv_activation (V:=V) None [Co (nf s)] _ _ _ w); try done.
    assert (HI3 : InvC None [Co (nf s); w] (<[nf s:=new_frame KTask Running []]> (heap s))
      (<[nt s:=Obj KTask (Some (nf s))]> (objs s)) (stack s) (S (nf s)) (S (nt s))).
    { eapply inv_new; eauto; lia. }
    clear -HI3. destruct HI3.
    assert (Hperm : [Co (nf s); w] ++ actors (stack s) ≡ₚ [w; Co (nf s)] ++ actors (stack s))
      by (cbn; apply Permutation_swap).
    split; try done.
    + intros f fr. rewrite <- Hperm. eauto.
    + intros f. rewrite <- Hperm. eauto.
    + by rewrite <- Hperm.
    + intros q. rewrite <- Hperm. eauto.
  - by apply Hpost.
  - by apply Hpost.
Qed.

Lemma ok_code w c (s : state) : Exec w s -> ok_res (step_code mv dflt w c s).
Proof.
  intros HE. destruct c as [p|i x h|i o]; cbn [step_code].
  - by apply ok_user.
  - destruct w; [by apply ok_await|done].
  - destruct w; [|done]. destruct (ctxs s !! i); [|done]. by apply ok_finish.
Qed.

Lemma asg_free_tail i (st : list item) : asg_free (i :: st) -> asg_free st.
Proof. apply Forall_inv_tail. Qed.

Lemma ainv_top i (s : state) st : AInv s -> stack s = i :: st -> not_asg i -> ¬ is_drops i -> asg_free st.
Proof.
  intros [Ha|(ds & x & y & rest & E & Hd & Hr & Hne & Hx)] Hs Hi Hnd.
  - rewrite Hs in Ha. by eapply asg_free_tail.
  - rewrite E in Hs. destruct ds as [|d ds]; cbn in Hs; simplify_eq.
    apply Forall_inv in Hd. done.
Qed.

Theorem ok_step (s : state) : Good s -> ok_res (step s).
Proof.
  intros [HI HA]. unfold TaskModel.step. destruct (stack s) as [|i st] eqn:Hst; [done|].
  destruct i as [w c|h l|l|x y|w vd x i ent c].
  - apply ok_code. split.
    + cbn. unfold Inv in HI. rewrite Hst in HI.
      apply (inv_activation (V:=V) None [] _ _ (Run w c) w) in HI; try done.
      pose proof (inv_plain _ _ _ _ _ _ _ HI) as Hp. by apply Forall_inv in Hp.
    + cbn. exact (ainv_top _ s st HA Hst I (fun H => H)).
  - destruct l as [|a l].
    + unfold Inv in HI. rewrite Hst in HI. apply inv_final_pop in HI.
      apply ok_deref; [done|]. left. cbn. exact (ainv_top _ s st HA Hst I (fun H => H)).
    + unfold Inv in HI. rewrite Hst in HI.
      destruct (inv_wake _ _ _ _ _ _ _ _ _ HI) as (fa & k & fh & o & Ha & Hs & Hh & Hfin & Hres & Hne & HI').
      rewrite Ha, Hs, Hh.
      rewrite (take_result_spec h _ fh o); [|cbn; rewrite lookup_alter_ne by done; exact Hh|done].
      apply good_run; [apply kapply_ok|]. split.
      * cbn. eapply inv_result; [exact HI'|rewrite lookup_alter_ne by done; exact Hh|done].
      * cbn. constructor; [done|]. exact (ainv_top _ s st HA Hst I (fun H => H)).
  - destruct l as [|x l].
    + split.
      * unfold Inv in *. cbn. rewrite Hst in HI. eapply inv_neutral; [|exact HI]. by split.
      * destruct HA as [HA|(ds & x & y & rest & E & Hd & Hr & Hne & Hx)].
        -- left. cbn. rewrite Hst in HA. by eapply asg_free_tail.
        -- right. cbn. rewrite Hst in E. destruct ds as [|d ds]; cbn in E; simplify_eq.
           exists ds, x, y, rest. split_and!; try done. by eapply Forall_inv_tail.
    + apply ok_drop. split.
      * unfold Inv in *. cbn. rewrite Hst in HI. apply inv_neutral; [by split|].
        eapply inv_neutral; [|exact HI]. by split.
      * destruct HA as [HA|(ds & x' & y & rest & E & Hd & Hr & Hne & Hx)].
        -- left. cbn. rewrite Hst in HA. constructor; [done|]. by eapply asg_free_tail.
        -- right. cbn. rewrite Hst in E. destruct ds as [|d ds]; cbn in E; simplify_eq.
           exists (Drops l :: ds), x', y, rest. split_and!; try done. constructor; [done|]. by eapply Forall_inv_tail.
  - destruct (objs s !! x) as [ox|] eqn:Hx; [|done]. destruct (objs s !! y) as [oy|] eqn:Hy; [|done].
    destruct HA as [HA|(ds & x' & y' & rest & E & Hd & Hr & Hne & Hnull)].
    { rewrite Hst in HA. by apply Forall_inv in HA. }
    rewrite Hst in E. destruct ds as [|d ds]; cbn in E; simplify_eq.
    2:{ by apply Forall_inv in Hd. }
    specialize (Hnull _ Hx). split; [|by left]. unfold Inv in *. cbn. rewrite Hst in HI.
    apply inv_neutral in HI; [|by split]. eapply inv_objs; [exact HI|..].
    + intros f. pose proof (refs_insert (<[y':=Obj (okind oy) None]> (objs s)) x' ox oy f) as E1.
      rewrite lookup_insert_ne in E1 by done. specialize (E1 Hx).
      pose proof (refs_insert (objs s) y' oy (Obj (okind oy) None) f Hy) as E2. rewrite hcount_none in E2.
      assert (hcount ox f = 0) by (apply hcount_ne; congruence). lia.
    + intros z o h Hz Ho. destruct (decide (z = x')) as [->|].
      * rewrite lookup_insert in Hz. simplify_eq. eauto.
      * rewrite lookup_insert_ne in Hz by done. destruct (decide (z = y')) as [->|].
        -- rewrite lookup_insert in Hz. by simplify_eq/=.
        -- rewrite lookup_insert_ne in Hz by done. eauto.
    + intros z [o Hz]. eapply inv_bt; [exact HI|]. destruct (decide (z = x')) as [->|]; [eauto|].
      rewrite lookup_insert_ne in Hz by done. destruct (decide (z = y')) as [->|]; [eauto|].
      rewrite lookup_insert_ne in Hz by done. eauto.
  - unfold Inv in HI. rewrite Hst in HI.
    assert (Hfree : asg_free st) by (exact (ainv_top _ s st HA Hst I (fun H => H))).
    destruct (ctxs s !! i) as [[o|]|]; [| |done].
    + apply good_user. split; [|done]. cbn.
      by apply (inv_activation (V:=V) None [] _ _ (WaitLoop w vd x i ent c) w) in HI.
    + destruct ent; [done|]. split.
      * unfold Inv. cbn. apply (inv_activation (V:=V) None [] _ _ _ w); try done.
        by apply (inv_activation (V:=V) None [] _ _ (WaitLoop w vd x i false c) w) in HI.
      * left. cbn. by constructor.
Qed.

Lemma idle_shape (s : state) : is_idle mv dflt s = true ->
  stack s = [] ∨ ∃ w vd x i c st, stack s = WaitLoop w vd x i true c :: st ∧ ctxs s !! i = Some None.
Proof.
  unfold is_idle, TaskModel.step. destruct (stack s) as [|i st]; [by left|].
  destruct i as [w c|h l|l|x y|w vd x i ent c].
  - intros H. exfalso. revert H. set (s' := set_stack st s). clearbody s'.
    unfold step_code. destruct c as [p|i x h|i o].
    + unfold step_user, finish, do_await, drop_obj, deref. intros H. repeat case_match; done.
    + unfold do_await. intros H. repeat case_match; done.
    + unfold finish. intros H. repeat case_match; done.
  - unfold deref. intros H. repeat case_match; done.
  - unfold drop_obj, deref. intros H. repeat case_match; done.
  - intros H. repeat case_match; done.
  - destruct (ctxs s !! i) as [[o|]|] eqn:Hc; [done| |done].
    destruct ent; [|done]. intros _. right. do 6 eexists. split; [done|done].
Qed.

Theorem ok_env e (s : state) : Good s -> ok_res (env_step e s).
Proof.
  intros [HI HA]. unfold TaskModel.env_step.
  destruct (is_idle mv dflt s) eqn:Hidle; [|done].
  assert (Hfree : asg_free (stack s)).
  { destruct HA as [HA|(ds & x & y & rest & E & Hd & Hr & _)]; [done|].
    apply idle_shape in Hidle as [E2|(w & vd & x' & i & c & st & E2 & _)].
    - rewrite E2 in E. by destruct ds.
    - rewrite E2 in E. destruct ds as [|d ds]; cbn in E; simplify_eq. by apply Forall_inv in Hd. }
  destruct e as [p|f o|q|].
  - split; [|left; cbn; by constructor]. unfold Inv. cbn.
    apply (inv_activation (V:=V) None [] _ _ _ (Plain (nf s))); try done.
    destruct HI as [I1 I2 I3 I4 I5 I6 I7 I8 I9 I9' I10 I11 I12 I13 I14 I15 I16 I17]. cbn [app] in *.
    split; cbn [app]; try done.
    + intros f fr Hf Hr. apply elem_of_list_further. eauto.
    + intros f Hf. apply I7. by apply elem_of_cons in Hf as [?|?].
    + apply NoDup_cons. split; [|done]. intros Hin. specialize (I16 _ Hin). lia.
    + intros f Hf. specialize (I14 f Hf). lia.
    + intros q Hq. apply elem_of_cons in Hq as [?|Hq]; [simplify_eq; lia|]. specialize (I16 _ Hq). lia.
  - destruct (heap s !! f) as [fr|] eqn:Hf; [|done]. destruct (fstatus fr) eqn:Hs; try done.
    apply good_user. split; [|done]. cbn. eapply inv_resume_simple; eauto; by rewrite Hs.
  - done.
  - destruct (stack s) as [|i st] eqn:Hst; [by split|].
    destruct i as [w c|h l|l|x y|w vd x i ent c]; try done.
    destruct vd; [|done]. apply good_user. unfold Inv in HI. rewrite Hst in HI. split.
    + by apply (inv_activation (V:=V) None [] _ _ (WaitLoop w true x i ent c) w) in HI.
    + cbn. by eapply asg_free_tail.
Qed.

Lemma good_init qs : Good (init qs : state).
Proof.
  split; [|left; constructor].
  assert (Hp : ∀ h, pending h (∅ : gmap nat frame) [] = []) by (intros h; unfold pending; by rewrite lookup_empty).
  assert (He : ∀ (A : Type) (x : nat), ¬ is_Some ((∅ : gmap nat A) !! x)).
  { intros A x. rewrite lookup_empty. by intros [? ?]. }
  split; cbn; try done; try (by constructor); try (intros; set_solver).
  all: try (intros f Hf; by apply He in Hf).
  all: try (intros f Hf; by apply elem_of_nil in Hf).
  all: try (intros f h Hf; rewrite Hp in Hf; by apply elem_of_nil in Hf).
  all: try (intros h; rewrite Hp; constructor).
Qed.

Lemma good_exec q s1 s2 : exec mv dflt q s1 s2 -> Good s1 -> Good s2.
Proof.
  induction 1 as [s|s s1 s2 _ IH Hs|s s1 s2 e _ IH He Hs]; [done| |]; intros HG.
  - pose proof (ok_step s1 (IH HG)) as Hok. by rewrite Hs in Hok.
  - pose proof (ok_env e s1 (IH HG)) as Hok. by rewrite Hs in Hok.
Qed.

Theorem good_reach q s : reach mv dflt q s -> Good s.
Proof. intros [qs H]. eapply good_exec; eauto. apply good_init. Qed.

Theorem safe_ub q s r : reach mv dflt q s -> ub_next mv dflt q s r -> user_ub r.
Proof.
  intros Hr Hu. apply good_reach in Hr. destruct Hu as [Hu|(e & _ & Hu)].
  - pose proof (ok_step s Hr) as Hok. by rewrite Hu in Hok.
  - pose proof (ok_env e s Hr) as Hok. by rewrite Hu in Hok.
Qed.
End safe.
