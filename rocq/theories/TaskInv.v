(** * Global invariant of the Task machine: reference counts, awaiter lists, call stack. *)
From stdpp Require Import gmap list.
From Verif Require Import TaskModel.

(** ** Counting references *)
Definition refs (m : gmap nat tobj) (f : nat) : nat :=
  size (filter (λ p : nat * tobj, ohandle p.2 = Some f) m).

Lemma refs_empty f : refs ∅ f = 0.
Proof. unfold refs. by rewrite map_filter_empty, map_size_empty. Qed.

Definition hcount (ob : tobj) (f : nat) : nat := if decide (ohandle ob = Some f) then 1 else 0.

Lemma refs_insert_fresh m x ob f : m !! x = None -> refs (<[x := ob]> m) f = hcount ob f + refs m f.
Proof.
  intros Hx. unfold refs, hcount. destruct (decide (ohandle ob = Some f)) as [H|H].
  - rewrite map_filter_insert_True by done.
    rewrite map_size_insert_None; [done|].
    apply map_filter_lookup_None. by left.
  - rewrite map_filter_insert_False by done.
    by rewrite delete_notin.
Qed.

Lemma refs_delete m x ob f : m !! x = Some ob -> refs m f = hcount ob f + refs (delete x m) f.
Proof.
  intros Hx. rewrite <- (insert_delete m x ob) at 1 by done.
  apply refs_insert_fresh. apply lookup_delete.
Qed.

Lemma refs_insert m x ob ob' f :
  m !! x = Some ob -> hcount ob f + refs (<[x := ob']> m) f = hcount ob' f + refs m f.
Proof.
  intros Hx. rewrite (refs_delete m x ob f Hx).
  rewrite <- insert_delete_insert. rewrite refs_insert_fresh by apply lookup_delete. lia.
Qed.

Lemma refs_pos m x ob f : m !! x = Some ob -> ohandle ob = Some f -> 0 < refs m f.
Proof.
  intros Hx Hf. rewrite (refs_delete _ _ _ _ Hx). unfold hcount. rewrite decide_True by done. lia.
Qed.

Lemma refs_zero m f : refs m f = 0 -> ∀ x ob, m !! x = Some ob -> ohandle ob ≠ Some f.
Proof. intros H x ob Hx Hf. pose proof (refs_pos _ _ _ _ Hx Hf). lia. Qed.

Lemma refs_zero_intro m f : (∀ x ob, m !! x = Some ob -> ohandle ob ≠ Some f) -> refs m f = 0.
Proof.
  intros H. unfold refs. apply map_size_empty_iff. apply map_filter_empty_iff.
  intros x ob Hx. by apply (H x ob).
Qed.

Lemma hcount_self ob f : ohandle ob = Some f -> hcount ob f = 1.
Proof. intros H. unfold hcount. by rewrite decide_True. Qed.
Lemma hcount_none k f : hcount (Obj k None) f = 0.
Proof. done. Qed.
Lemma hcount_ne ob f : ohandle ob ≠ Some f -> hcount ob f = 0.
Proof. intros H. unfold hcount. by rewrite decide_False. Qed.

(** Effect of moving all parameter objects. *)
Lemma move_all_spec ps : ∀ m n m' l,
  (∀ x, is_Some (m !! x) -> x < n) ->
  move_all ps m n = Some (m', l) ->
  (∀ f, refs m' f = refs m f) ∧
  (∀ x, is_Some (m' !! x) -> x < n + length ps) ∧
  (∀ x, x < n -> is_Some (m !! x) <-> is_Some (m' !! x)) ∧
  (∀ x, is_Some (m !! x) -> is_Some (m' !! x)) ∧
  (∀ x ob, m' !! x = Some ob -> ohandle ob = None ∨ ∃ y, m !! y = Some ob) ∧
  length l = length ps ∧
  (∀ y, y ∈ l <-> n <= y < n + length ps).
Proof.
  induction ps as [|x ps IH]; intros m n m' l Hlt H; cbn [move_all] in H.
  - simplify_eq. cbn [length].
    split_and!; [done| |done|done|by eauto|done|].
    + intros y Hy. specialize (Hlt y Hy). lia.
    + intros y. rewrite elem_of_nil. lia.
  - destruct (m !! x) as [ob|] eqn:Hx; [|done].
    destruct (move_all ps _ _) as [[m1 l1]|] eqn:Hm; [|done]. simplify_eq.
    assert (x < n) as Hxn by (apply Hlt; eauto).
    assert (m !! n = None) as Hn.
    { destruct (m !! n) eqn:E; [|done]. exfalso. assert (n < n) by (apply Hlt; eauto). lia. }
    apply IH in Hm as (Hr & Hlt' & Hsame & Hmono & Hob & Hlen & Hl).
    2:{ intros y Hy. destruct (decide (y = n)) as [->|Hyn]; [lia|].
        rewrite lookup_insert_ne in Hy by done.
        destruct (decide (y = x)) as [->|Hyx]; [lia|].
        rewrite lookup_insert_ne in Hy by done. specialize (Hlt y Hy). lia. }
    cbn [length]. split_and!.
    + intros f. rewrite Hr.
      rewrite refs_insert_fresh by (rewrite lookup_insert_ne by lia; done).
      pose proof (refs_insert m x ob (Obj (okind ob) None) f Hx) as E.
      rewrite hcount_none in E. lia.
    + intros y Hy. apply Hlt' in Hy. lia.
    + intros y Hy. rewrite <- Hsame by lia. rewrite lookup_insert_ne by lia.
      destruct (decide (y = x)) as [->|Hyx].
      * rewrite lookup_insert, Hx. split; eauto.
      * by rewrite lookup_insert_ne.
    + intros y Hy. apply Hmono. assert (y ≠ n) by (intros ->; rewrite Hn in Hy; by destruct Hy).
      rewrite lookup_insert_ne by done. destruct (decide (y = x)) as [->|Hyx].
      * rewrite lookup_insert. eauto.
      * by rewrite lookup_insert_ne.
    + intros y ob' Hy. apply Hob in Hy as [Hy|[z Hz]]; [by left|].
      destruct (decide (z = n)) as [->|Hzn].
      * rewrite lookup_insert in Hz. simplify_eq. right. eauto.
      * rewrite lookup_insert_ne in Hz by done. destruct (decide (z = x)) as [->|Hzx].
        -- rewrite lookup_insert in Hz. simplify_eq. by left.
        -- rewrite lookup_insert_ne in Hz by done. eauto.
    + by rewrite Hlen.
    + intros y. rewrite elem_of_cons, Hl. lia.
Qed.

(** ** Projections of the call stack *)
Section inv.
Context {V : Type}.
Notation state := (state V). Notation item := (item V). Notation frame := (frame V).

Definition item_actors (i : item) : list actor :=
  match i with Run w _ => [w] | WaitLoop w _ _ _ _ _ => [w] | _ => [] end.
Definition actors (st : list item) : list actor := flat_map item_actors st.
Definition item_finals (i : item) : list nat := match i with FinalSusp h _ => [h] | _ => [] end.
Definition finals (st : list item) : list nat := flat_map item_finals st.
Definition item_pend (h : nat) (i : item) : list nat :=
  match i with FinalSusp h' l => if decide (h = h') then l else [] | _ => [] end.
Definition fin_list (h : nat) (st : list item) : list nat := flat_map (item_pend h) st.

(** Coroutines that are registered with [h] and not yet resumed. *)
Definition pending (h : nat) (hp : gmap nat frame) (st : list item) : list nat :=
  match hp !! h with
  | None => []
  | Some fr => if is_final fr then fin_list h st else fawaiters fr
  end.

(** Does the coroutine still hold the reference to itself? *)
Definition sref (f : nat) (fr : frame) (st : list item) : nat :=
  if is_final fr then (if decide (f ∈ finals st) then 1 else 0) else 1.

Definition xcount (xr : option nat) (f : nat) : nat := if decide (xr = Some f) then 1 else 0.

Definition plain_ok (i : item) : Prop :=
  match i with
  | Run _ (CUser _) => True
  | Run (Co _) (CWaitSet _ _) => True
  | Run _ _ => False
  | _ => True
  end.

(** [xr]: a reference to be released next; [xa]: activations taken off the stack but still executing. *)
Record InvC (xr : option nat) (xa : list actor) (hp : gmap nat frame) (ob : gmap nat tobj) (st : list item)
    (n_f n_t : nat) : Prop := {
  inv_obj : ∀ x o h, ob !! x = Some o -> ohandle o = Some h -> ∃ fr, hp !! h = Some fr ∧ fkind fr = okind o;
  inv_rc : ∀ f fr, hp !! f = Some fr ->
    frc fr = refs ob f + sref f fr st + xcount xr f ∧ 0 < frc fr;
  inv_xr : ∀ h, xr = Some h -> is_Some (hp !! h);
  inv_fin : ∀ f, f ∈ finals st -> ∃ fr, hp !! f = Some fr ∧ is_final fr = true;
  inv_fnd : NoDup (finals st);
  inv_run : ∀ f fr, hp !! f = Some fr -> fstatus fr = Running -> Co f ∈ xa ++ actors st;
  inv_act : ∀ f, Co f ∈ xa ++ actors st -> ∃ fr, hp !! f = Some fr ∧ fstatus fr = Running;
  inv_and : NoDup (xa ++ actors st);
  inv_res : ∀ f fr, hp !! f = Some fr -> is_final fr = true -> is_Some (fresult fr);
  inv_nores : ∀ f fr, hp !! f = Some fr -> is_final fr = false -> fresult fr = None;
  inv_aw : ∀ f fr h k, hp !! f = Some fr -> fstatus fr = AwaitTask h k -> f ∈ pending h hp st;
  inv_pend : ∀ f h, f ∈ pending h hp st -> ∃ fr k, hp !! f = Some fr ∧ fstatus fr = AwaitTask h k;
  inv_pnd : ∀ h, NoDup (pending h hp st);
  inv_lazy : ∀ f fr p, hp !! f = Some fr -> fstatus fr = Initial p -> fkind fr = KLazy;
  inv_bf : ∀ f, is_Some (hp !! f) -> f < n_f;
  inv_bt : ∀ x, is_Some (ob !! x) -> x < n_t;
  inv_bp : ∀ n, Plain n ∈ xa ++ actors st -> n < n_f;
  inv_plain : Forall plain_ok st;
}.

Definition Inv (s : state) : Prop := InvC None [] (heap s) (objs s) (stack s) (nf s) (nt s).

Lemma finals_cons i st : finals (i :: st) = item_finals i ++ finals st.
Proof. done. Qed.
Lemma actors_cons i st : actors (i :: st) = item_actors i ++ actors st.
Proof. done. Qed.
Lemma fin_list_cons h i st : fin_list h (i :: st) = item_pend h i ++ fin_list h st.
Proof. done. Qed.

Lemma fin_list_in h a st : a ∈ fin_list h st -> h ∈ finals st.
Proof.
  induction st as [|i st IH]; [by rewrite elem_of_nil|].
  rewrite fin_list_cons, finals_cons, !elem_of_app. intros [H|H]; [left|right; auto].
  destruct i; cbn in *; try by (rewrite elem_of_nil in H).
  destruct (decide (h = h0)) as [->|]; [by apply elem_of_list_singleton|by rewrite elem_of_nil in H].
Qed.

Lemma fin_list_notin h st : h ∉ finals st -> fin_list h st = [].
Proof.
  intros H. destruct (fin_list h st) as [|a l] eqn:E; [done|].
  exfalso. apply H, (fin_list_in h a). rewrite E. apply elem_of_list_here.
Qed.

(** Stack items that matter neither for activations nor for final suspends. *)
Definition neutral (i : item) : Prop := item_actors i = [] ∧ item_finals i = [].

Lemma neutral_pend i h : neutral i -> item_pend h i = [].
Proof. intros [_ H]. destruct i; try done. Qed.

Lemma inv_neutral xr xa hp ob i st n m :
  neutral i -> InvC xr xa hp ob st n m <-> InvC xr xa hp ob (i :: st) n m.
Proof.
  intros Hn. pose proof Hn as [Ha Hf].
  assert (Hact : actors (i :: st) = actors st) by (rewrite actors_cons, Ha; done).
  assert (Hfin : finals (i :: st) = finals st) by (rewrite finals_cons, Hf; done).
  assert (Hp : ∀ h, pending h hp (i :: st) = pending h hp st).
  { intros h. unfold pending. rewrite fin_list_cons, neutral_pend by done. done. }
  assert (Hs : ∀ f fr, sref f fr (i :: st) = sref f fr st) by (intros; unfold sref; by rewrite Hfin).
  assert (Hpl : plain_ok i) by (destruct i; done).
  split; intros []; split; rewrite ?Hact, ?Hfin in *; try done.
  - intros f fr. rewrite Hs. auto.
  - intros f fr h k. rewrite Hp. eauto.
  - intros f h. rewrite Hp. eauto.
  - intros h. rewrite Hp. eauto.
  - by constructor.
  - intros f fr. rewrite <- Hs. auto.
  - intros f fr h k. rewrite <- Hp. eauto.
  - intros f h. rewrite <- Hp. eauto.
  - intros h. rewrite <- Hp. eauto.
  - by eapply Forall_inv_tail.
Qed.

(** An activation on the stack or being executed. *)
Lemma inv_activation xr xa hp ob i w st n m :
  item_actors i = [w] -> item_finals i = [] -> plain_ok i ->
  InvC xr (w :: xa) hp ob st n m <-> InvC xr xa hp ob (i :: st) n m.
Proof.
  intros Ha Hf Hpl.
  assert (Hperm : (w :: xa) ++ actors st ≡ₚ xa ++ actors (i :: st)).
  { rewrite actors_cons, Ha. cbn [app]. apply Permutation_middle. }
  assert (Hfin : finals (i :: st) = finals st) by (rewrite finals_cons, Hf; done).
  assert (Hpn : ∀ h, item_pend h i = []) by (intros h; destruct i; done).
  assert (Hp : ∀ h, pending h hp (i :: st) = pending h hp st).
  { intros h. unfold pending. rewrite fin_list_cons, Hpn. done. }
  assert (Hs : ∀ f fr, sref f fr (i :: st) = sref f fr st) by (intros; unfold sref; by rewrite Hfin).
  assert (Hin : ∀ a, a ∈ (w :: xa) ++ actors st <-> a ∈ xa ++ actors (i :: st))
    by (intros a; by rewrite Hperm).
  split; intros []; split; rewrite ?Hfin in *; try done.
  - intros f fr. rewrite Hs. auto.
  - intros f fr. rewrite <- Hin. eauto.
  - intros f. rewrite <- Hin. eauto.
  - by rewrite <- Hperm.
  - intros f fr h k. rewrite Hp. eauto.
  - intros f h. rewrite Hp. eauto.
  - intros h. rewrite Hp. eauto.
  - intros k. rewrite <- Hin. eauto.
  - by constructor.
  - intros f fr. rewrite <- Hs. auto.
  - intros f fr. rewrite Hin. eauto.
  - intros f. rewrite Hin. eauto.
  - by rewrite Hperm.
  - intros f fr h k. rewrite <- Hp. eauto.
  - intros f h. rewrite <- Hp. eauto.
  - intros h. rewrite <- Hp. eauto.
  - intros k. rewrite Hin. eauto.
  - by eapply Forall_inv_tail.
Qed.

Lemma neutral_drops l : neutral (Drops l).
Proof. by split. Qed.
Lemma neutral_assign x y : neutral (Assign x y).
Proof. by split. Qed.

(** ** Preservation lemmas for the primitive operations *)

Lemma pending_delete h f hp st fr :
  hp !! f = Some fr -> is_final fr = true -> f ∉ finals st ->
  pending h (delete f hp) st = pending h hp st.
Proof.
  intros Hf Hfin Hst. unfold pending. destruct (decide (h = f)) as [->|Hne].
  - rewrite lookup_delete, Hf, Hfin. symmetry. by apply fin_list_notin.
  - by rewrite lookup_delete_ne.
Qed.

Lemma inv_deref h xa s :
  InvC (Some h) xa (heap s) (objs s) (stack s) (nf s) (nt s) ->
  ∃ s', deref h s = Next s' ∧ InvC None xa (heap s') (objs s') (stack s') (nf s') (nt s').
Proof.
  intros I. destruct (inv_xr _ _ _ _ _ _ _ I h eq_refl) as [fr Hfr].
  pose proof (inv_rc _ _ _ _ _ _ _ I h fr Hfr) as [Hrc Hpos].
  unfold xcount in Hrc. rewrite decide_True in Hrc by done.
  unfold deref. rewrite Hfr. destruct (frc fr) as [|[|n]] eqn:Ern; [lia| |].
  - (* destroyed *)
    assert (refs (objs s) h = 0) as Hr0 by lia.
    assert (sref h fr (stack s) = 0) as Hs0 by lia.
    unfold sref in Hs0. destruct (is_final fr) eqn:Hfin; [|lia].
    destruct (decide (h ∈ finals (stack s))) as [|Hnf]; [lia|].
    eexists. split; [done|]. cbn.
    apply inv_neutral; [apply neutral_drops|].
    destruct I as [I1 I2 I3 I4 I5 I6 I7 I8 I9 I9' I10 I11 I12 I13 I14 I15 I16 I17].
    assert (Hp : ∀ x, pending x (delete h (heap s)) (stack s) = pending x (heap s) (stack s))
      by (intros x; eapply pending_delete; eauto).
    split; try done.
    + intros x o g Hx Hg. destruct (decide (g = h)) as [->|Hne].
      * exfalso. eapply refs_zero; eauto.
      * destruct (I1 x o g Hx Hg) as (fr' & ? & ?). exists fr'. by rewrite lookup_delete_ne.
    + intros f fr' Hf. apply lookup_delete_Some in Hf as [Hne Hf].
      destruct (I2 f fr' Hf) as [E ?]. split; [|done]. rewrite E.
      unfold xcount. rewrite decide_False, decide_False by (congruence || done). done.
    + intros f Hf. destruct (I4 f Hf) as (fr' & ? & ?). exists fr'. split; [|done].
      rewrite lookup_delete_ne; [done|]. intros <-. done.
    + intros f fr' Hf. apply lookup_delete_Some in Hf as [Hne Hf]. eauto.
    + intros f Hf. destruct (I7 f Hf) as (fr' & ? & Hrun). exists fr'. split; [|done].
      rewrite lookup_delete_ne; [done|]. intros <-. simplify_eq.
      unfold is_final in Hfin. by rewrite Hrun in Hfin.
    + intros f fr' Hf. apply lookup_delete_Some in Hf as [Hne Hf]. eauto.
    + intros f fr' Hf. apply lookup_delete_Some in Hf as [Hne Hf]. eauto.
    + intros f fr' g k Hf. apply lookup_delete_Some in Hf as [Hne Hf]. rewrite Hp. eauto.
    + intros f g. rewrite Hp. intros Hf. destruct (I11 f g Hf) as (fr' & k & ? & Hst). exists fr', k.
      split; [|done]. rewrite lookup_delete_ne; [done|]. intros <-. simplify_eq.
      unfold is_final in Hfin. by rewrite Hst in Hfin.
    + intros g. rewrite Hp. eauto.
    + intros f fr' p Hf. apply lookup_delete_Some in Hf as [Hne Hf]. eauto.
    + intros f [fr' Hf]. apply lookup_delete_Some in Hf as [Hne Hf]. eauto.
  - (* reference count decremented *)
    eexists. split; [done|]. cbn.
    destruct I as [I1 I2 I3 I4 I5 I6 I7 I8 I9 I9' I10 I11 I12 I13 I14 I15 I16 I17].
    assert (Hl : ∀ f fr', alter (fr_rc (S n)) h (heap s) !! f = Some fr' ->
      ∃ fr0, heap s !! f = Some fr0 ∧ fkind fr' = fkind fr0 ∧ fstatus fr' = fstatus fr0 ∧
        fresult fr' = fresult fr0 ∧ fawaiters fr' = fawaiters fr0).
    { intros f fr' Hf. apply lookup_alter_Some in Hf as [(-> & fr0 & ? & ->)|[? ?]]; eauto 10. }
    assert (Hl2 : ∀ f fr0, heap s !! f = Some fr0 ->
      ∃ fr', alter (fr_rc (S n)) h (heap s) !! f = Some fr' ∧ fkind fr' = fkind fr0 ∧ fstatus fr' = fstatus fr0).
    { intros f fr0 Hf. destruct (decide (f = h)) as [->|].
      - rewrite lookup_alter, Hf. eexists. split; [done|]. done.
      - rewrite lookup_alter_ne by done. eauto. }
    assert (Hfi : ∀ f1 f2 : frame, fstatus f1 = fstatus f2 -> is_final f1 = is_final f2)
      by (intros f1 f2 E; unfold is_final; by rewrite E).
    assert (Hp : ∀ x, pending x (alter (fr_rc (S n)) h (heap s)) (stack s) = pending x (heap s) (stack s)).
    { intros x. unfold pending. destruct (decide (x = h)) as [->|].
      - rewrite lookup_alter, Hfr. done.
      - by rewrite lookup_alter_ne. }
    split; try done.
    + intros x o g Hx Hg. destruct (I1 x o g Hx Hg) as (fr' & Hg' & ?).
      destruct (Hl2 _ _ Hg') as (fr2 & ? & ? & ?). exists fr2. split; [done|congruence].
    + intros f fr' Hf. apply lookup_alter_Some in Hf as [(<- & fr0 & Hf & ->)|[Hne Hf]].
      * assert (fr0 = fr) as -> by congruence. cbn. unfold xcount. rewrite decide_False by done.
        destruct (I2 h fr Hf) as [E ?]. unfold xcount in E. rewrite decide_True in E by done.
        rewrite Ern in E. unfold sref, is_final in *. cbn. lia.
      * destruct (I2 f fr' Hf) as [E ?]. split; [|done]. rewrite E. unfold xcount.
        rewrite !decide_False by congruence. done.
    + intros f Hf. destruct (I4 f Hf) as (fr' & Hg' & ?).
      destruct (Hl2 _ _ Hg') as (fr2 & ? & ? & ?). exists fr2. split; [done|]. by rewrite (Hfi fr2 fr').
    + intros f fr' Hf Hr. destruct (Hl _ _ Hf) as (fr0 & ? & ? & E & ?). eapply I6; [done|congruence].
    + intros f Hf. destruct (I7 f Hf) as (fr' & Hg' & ?).
      destruct (Hl2 _ _ Hg') as (fr2 & ? & ? & ?). exists fr2. split; [done|congruence].
    + intros f fr' Hf Hr. destruct (Hl _ _ Hf) as (fr0 & ? & ? & E & -> & ?). eapply I9; [done|].
      by rewrite (Hfi fr0 fr').
    + intros f fr' Hf Hr. destruct (Hl _ _ Hf) as (fr0 & ? & ? & E & -> & ?). eapply I9'; [done|].
      by rewrite (Hfi fr0 fr').
    + intros f fr' g k Hf Hr. destruct (Hl _ _ Hf) as (fr0 & ? & ? & E & ?). rewrite Hp. eapply I10; [done|]. rewrite <- E. exact Hr.
    + intros f g. rewrite Hp. intros Hf. destruct (I11 f g Hf) as (fr' & k & Hg' & ?).
      destruct (Hl2 _ _ Hg') as (fr2 & ? & ? & ?). exists fr2, k. split; [done|congruence].
    + intros g. rewrite Hp. eauto.
    + intros f fr' p Hf Hr. destruct (Hl _ _ Hf) as (fr0 & ? & ? & E & ?). rewrite H0. eapply I13; [done|]. rewrite <- E. exact Hr.
    + intros f [fr' Hf]. destruct (Hl _ _ Hf) as (fr0 & ? & ? & E & ?). eauto.
Qed.

Lemma inv_drop x xa s :
  InvC None xa (heap s) (objs s) (stack s) (nf s) (nt s) ->
  (∃ s', drop_obj x s = Next s' ∧ InvC None xa (heap s') (objs s') (stack s') (nf s') (nt s'))
  ∨ drop_obj x s = UB UDeadTask.
Proof.
  intros I. unfold drop_obj. destruct (objs s !! x) as [o|] eqn:Hx; [left|by right].
  assert (Hdel : InvC (ohandle o) xa (heap s) (delete x (objs s)) (stack s) (nf s) (nt s)).
  { destruct I. split; try done.
    - intros y o' h Hy. apply lookup_delete_Some in Hy as [? Hy]. eauto.
    - intros f fr Hf. destruct (inv_rc0 f fr Hf) as [E ?]. split; [|done]. rewrite E.
      rewrite (refs_delete _ _ _ f Hx). unfold hcount, xcount.
      destruct (decide (None = Some f)); [done|]. destruct (decide (ohandle o = Some f)); lia.
    - intros h Hh. destruct (inv_obj0 x o h Hx Hh) as (fr & ? & ?). eauto.
    - intros y [o' Hy]. apply lookup_delete_Some in Hy as [? Hy]. eauto. }
  destruct (ohandle o) as [h|] eqn:Hh.
  - apply (inv_deref h xa (set_objs (delete x (objs s)) s)). exact Hdel.
  - eexists. split; [done|]. exact Hdel.
Qed.

(** Changing objects without changing references. *)
Lemma inv_objs xr xa hp ob ob' st n m m' :
  InvC xr xa hp ob st n m ->
  (∀ f, refs ob' f = refs ob f) ->
  (∀ x o h, ob' !! x = Some o -> ohandle o = Some h -> ∃ y, ob !! y = Some o) ->
  (∀ x, is_Some (ob' !! x) -> x < m') ->
  InvC xr xa hp ob' st n m'.
Proof.
  intros [] Hr Ho Hb. split; try done.
  - intros x o h Hx Hh. destruct (Ho x o h Hx Hh) as [y Hy]. eauto.
  - intros f fr Hf. rewrite Hr. auto.
Qed.
Lemma is_final_status (a b : frame) : fstatus a = fstatus b -> is_final a = is_final b.
Proof. unfold is_final. by intros ->. Qed.

(** Consuming a result. *)
Lemma inv_result xr xa hp ob st n m h fr o :
  InvC xr xa hp ob st n m -> hp !! h = Some fr -> is_final fr = true ->
  InvC xr xa (alter (fr_result (Some o)) h hp) ob st n m.
Proof.
  intros [I1 I2 I3 I4 I5 I6 I7 I8 I9 I9' I10 I11 I12 I13 I14 I15 I16 I17] Hfr Hfin.
  assert (Hl : ∀ f fr', alter (fr_result (Some o)) h hp !! f = Some fr' ->
      ∃ fr0, hp !! f = Some fr0 ∧ fkind fr' = fkind fr0 ∧ fstatus fr' = fstatus fr0 ∧
        frc fr' = frc fr0 ∧ is_final fr' = is_final fr0).
  { intros f fr' Hf. apply lookup_alter_Some in Hf as [(-> & fr0 & ? & ->)|[? ?]]; eauto 10. }
  assert (Hl2 : ∀ f fr0, hp !! f = Some fr0 ->
      ∃ fr', alter (fr_result (Some o)) h hp !! f = Some fr' ∧ fkind fr' = fkind fr0 ∧ fstatus fr' = fstatus fr0
        ∧ is_final fr' = is_final fr0).
  { intros f fr0 Hf. destruct (decide (f = h)) as [->|].
    - rewrite lookup_alter, Hf. eexists. split; [done|]. done.
    - rewrite lookup_alter_ne by done. eauto. }
  assert (Hp : ∀ x, pending x (alter (fr_result (Some o)) h hp) st = pending x hp st).
  { intros x. unfold pending. destruct (decide (x = h)) as [->|].
    - rewrite lookup_alter, Hfr. done.
    - by rewrite lookup_alter_ne. }
  split; try done.
  - intros x ob' g Hx Hg. destruct (I1 x ob' g Hx Hg) as (fr' & Hg' & ?).
    destruct (Hl2 _ _ Hg') as (fr2 & ? & ? & ? & ?). exists fr2. split; [done|congruence].
  - intros f fr' Hf. destruct (Hl _ _ Hf) as (fr0 & Hf0 & ? & ? & -> & E).
    unfold sref. rewrite E. by apply I2.
  - intros g Hg. destruct (I3 g Hg) as [fr' Hg']. destruct (Hl2 _ _ Hg') as (fr2 & ? & _). eauto.
  - intros f Hf. destruct (I4 f Hf) as (fr' & Hg' & ?).
    destruct (Hl2 _ _ Hg') as (fr2 & ? & ? & ? & E). exists fr2. split; [done|congruence].
  - intros f fr' Hf Hr. destruct (Hl _ _ Hf) as (fr0 & ? & ? & E & ?). eapply I6; [done|congruence].
  - intros f Hf. destruct (I7 f Hf) as (fr' & Hg' & ?).
    destruct (Hl2 _ _ Hg') as (fr2 & ? & ? & ? & ?). exists fr2. split; [done|congruence].
  - intros f fr' Hf Hr. apply lookup_alter_Some in Hf as [(-> & fr0 & ? & ->)|[? ?]]; cbn; eauto.
  - intros f fr' Hf Hr. apply lookup_alter_Some in Hf as [(-> & fr0 & ? & ->)|[? ?]]; cbn; eauto.
    simplify_eq. unfold is_final in *. cbn in Hr. congruence.
  - intros f fr' g k Hf Hr. destruct (Hl _ _ Hf) as (fr0 & ? & ? & E & ?). rewrite Hp. eapply I10; [done|].
    rewrite <- E. exact Hr.
  - intros f g. rewrite Hp. intros Hf. destruct (I11 f g Hf) as (fr' & k & Hg' & ?).
    destruct (Hl2 _ _ Hg') as (fr2 & ? & ? & ? & ?). exists fr2, k. split; [done|congruence].
  - intros g. rewrite Hp. eauto.
  - intros f fr' p Hf Hr. destruct (Hl _ _ Hf) as (fr0 & ? & E0 & E & ?). rewrite E0.
    eapply I13; [done|]. rewrite <- E. exact Hr.
  - intros f [fr' Hf]. destruct (Hl _ _ Hf) as (fr0 & ? & ?). eauto.
Qed.

(** Status changes that involve neither final suspension nor waiting on a coroutine. *)
Definition simple_status (x : status V) : Prop :=
  match x with AwaitTask _ _ => False | Final => False | _ => True end.

Lemma inv_status xr xa xa' hp ob st n m f fr x :
  InvC xr xa hp ob st n m ->
  hp !! f = Some fr -> simple_status (fstatus fr) -> simple_status x -> (∀ p, x ≠ Initial p) ->
  (∀ a, a ∈ xa' ++ actors st <-> (a ∈ xa ++ actors st ∧ a ≠ Co f) ∨ (a = Co f ∧ x = Running)) ->
  NoDup (xa' ++ actors st) ->
  InvC xr xa' (alter (fr_status x) f hp) ob st n m.
Proof.
  intros [I1 I2 I3 I4 I5 I6 I7 I8 I9 I9' I10 I11 I12 I13 I14 I15 I16 I17] Hfr Hold Hnew Hni Hin Hnd.
  assert (Hnf : is_final fr = false) by (unfold is_final; by destruct (fstatus fr)).
  assert (Hl : ∀ g fr', alter (fr_status x) f hp !! g = Some fr' ->
      (g = f ∧ fr' = fr_status x fr) ∨ (g ≠ f ∧ hp !! g = Some fr')).
  { intros g fr' Hg. apply lookup_alter_Some in Hg as [(-> & fr0 & ? & ->)|[? ?]]; [left|right].
    - split; [done|]. congruence.
    - done. }
  assert (Hsame : alter (fr_status x) f hp !! f = Some (fr_status x fr)) by (rewrite lookup_alter, Hfr; done).
  assert (Hother : ∀ g, g ≠ f -> alter (fr_status x) f hp !! g = hp !! g)
    by (intros; by apply lookup_alter_ne).
  assert (Hxf : is_final (fr_status x fr) = false) by (unfold is_final; cbn; by destruct x).
  assert (Hp : ∀ y, pending y (alter (fr_status x) f hp) st = pending y hp st).
  { intros y. unfold pending. destruct (decide (y = f)) as [->|].
    - rewrite Hsame, Hfr, Hnf, Hxf. done.
    - by rewrite Hother. }
  split; try done.
  - intros y o g Hy Hg. destruct (I1 y o g Hy Hg) as (fr' & Hg' & ?).
    destruct (decide (g = f)) as [->|]; [|rewrite Hother by done; eauto].
    rewrite Hsame. eexists. split; [done|]. cbn. congruence.
  - intros g fr' Hg. destruct (Hl _ _ Hg) as [[-> ->]|[? ?]]; [|auto].
    unfold sref. rewrite Hxf. destruct (I2 f fr Hfr) as [E ?]. unfold sref in E. by rewrite Hnf in E.
  - intros g Hg. destruct (decide (g = f)) as [->|]; [rewrite Hsame; eauto|rewrite Hother by done; eauto].
  - intros g Hg. destruct (I4 g Hg) as (fr' & Hg' & ?).
    rewrite Hother; [eauto|]. intros ->. congruence.
  - intros g fr' Hg Hr. apply Hin. destruct (Hl _ _ Hg) as [[-> ->]|[? ?]]; [right; done|left].
    split; [eauto|congruence].
  - intros g Hg. apply Hin in Hg as [[Hg ?]|[Hg ->]].
    + destruct (I7 g Hg) as (fr' & Hg' & ?). rewrite Hother by congruence. eauto.
    + simplify_eq. rewrite Hsame. eauto.
  - intros g fr' Hg Hr. destruct (Hl _ _ Hg) as [[-> ->]|[? ?]]; [congruence|eauto].
  - intros g fr' Hg Hr. destruct (Hl _ _ Hg) as [[-> ->]|[? ?]]; cbn; eauto.
  - intros g fr' h k Hg Hr. rewrite Hp. destruct (Hl _ _ Hg) as [[-> ->]|[? ?]]; [|eauto].
    cbn in Hr. by rewrite Hr in Hnew.
  - intros g h. rewrite Hp. intros Hg. destruct (I11 g h Hg) as (fr' & k & Hg' & E).
    rewrite Hother; [eauto|]. intros ->. rewrite Hfr in Hg'. simplify_eq. by rewrite E in Hold.
  - intros h. rewrite Hp. auto.
  - intros g fr' p Hg Hr. destruct (Hl _ _ Hg) as [[-> ->]|[? ?]]; [|eauto].
    cbn in Hr. by destruct (Hni p).
  - intros g [fr' Hg]. destruct (Hl _ _ Hg) as [[-> ->]|[? ?]]; eauto.
  - intros k Hk. apply Hin in Hk as [[? ?]|[? ?]]; [auto|done].
Qed.

Lemma inv_suspend_simple xr xa hp ob st n m f x :
  InvC xr (Co f :: xa) hp ob st n m -> simple_status x -> x ≠ Running -> (∀ p, x ≠ Initial p) ->
  InvC xr xa (alter (fr_status x) f hp) ob st n m.
Proof.
  intros I Hx Hr Hi. destruct (inv_act _ _ _ _ _ _ _ I f) as (fr & Hfr & Hst); [apply elem_of_list_here|].
  pose proof (inv_and _ _ _ _ _ _ _ I) as Hnd. cbn [app] in Hnd. apply NoDup_cons in Hnd as [Hnin Hnd].
  eapply inv_status; eauto.
  - by rewrite Hst.
  - intros a. cbn [app]. rewrite elem_of_cons. split.
    + intros Ha. left. split; [by right|]. intros ->. done.
    + intros [[[->|?] ?]|[? ?]]; done.
Qed.

Lemma inv_resume_simple xr xa hp ob st n m f fr :
  InvC xr xa hp ob st n m -> hp !! f = Some fr -> simple_status (fstatus fr) -> fstatus fr ≠ Running ->
  InvC xr (Co f :: xa) (alter (fr_status Running) f hp) ob st n m.
Proof.
  intros I Hfr Hx Hr. assert (Hnin : Co f ∉ xa ++ actors st).
  { intros Hin. destruct (inv_act _ _ _ _ _ _ _ I f Hin) as (fr' & ? & ?). congruence. }
  eapply inv_status; eauto.
  - done.
  - intros a. cbn [app]. rewrite elem_of_cons. split.
    + intros [->|Ha]; [by right|]. left. split; [done|]. intros ->. done.
    + intros [[? ?]|[-> ?]]; [by right|by left].
  - cbn [app]. apply NoDup_cons. split; [done|]. by eapply inv_and.
Qed.

(** f (running) starts to wait on the unfinished coroutine h. *)
Lemma inv_register xr xa hp ob st n m f h fr k :
  InvC xr (Co f :: xa) hp ob st n m -> hp !! h = Some fr -> is_final fr = false ->
  InvC xr xa (alter (fr_status (AwaitTask h k)) f (alter (fun fr => fr_awaiters (fawaiters fr ++ [f]) fr) h hp))
    ob st n m.
Proof.
  intros I Hh Hnf. destruct (inv_act _ _ _ _ _ _ _ I f) as (ff & Hf & Hst); [apply elem_of_list_here|].
  pose proof (inv_and _ _ _ _ _ _ _ I) as Hnd. cbn [app] in Hnd. apply NoDup_cons in Hnd as [Hnin Hnd].
  destruct I as [I1 I2 I3 I4 I5 I6 I7 I8 I9 I9' I10 I11 I12 I13 I14 I15 I16 I17].
  set (hp' := alter _ f _).
  assert (Hff : is_final ff = false) by (unfold is_final; by rewrite Hst).
  assert (Hnp : ∀ y, f ∉ pending y hp st).
  { intros y Hy. destruct (I11 f y Hy) as (fr' & k' & Hf' & E). congruence. }
  assert (Hl : ∀ g fr', hp' !! g = Some fr' -> ∃ fr0, hp !! g = Some fr0 ∧
      fkind fr' = fkind fr0 ∧ frc fr' = frc fr0 ∧ fresult fr' = fresult fr0 ∧
      fstatus fr' = (if decide (g = f) then AwaitTask h k else fstatus fr0) ∧
      fawaiters fr' = (if decide (g = h) then fawaiters fr0 ++ [f] else fawaiters fr0) ∧
      is_final fr' = is_final fr0).
  { intros g fr' Hg. unfold hp' in Hg.
    destruct (decide (g = f)) as [->|Hgf].
    - rewrite lookup_alter in Hg. destruct (decide (f = h)) as [->|Hfh].
      + rewrite lookup_alter, Hf in Hg. simplify_eq/=. exists fr. split_and!; try done.
      + rewrite lookup_alter_ne, Hf in Hg by done. simplify_eq/=. exists ff. split_and!; try done.
    - rewrite lookup_alter_ne in Hg by done. destruct (decide (g = h)) as [->|Hgh].
      + rewrite lookup_alter, Hh in Hg. simplify_eq/=. exists fr. split_and!; try done.
      + rewrite lookup_alter_ne in Hg by done. exists fr'. split_and!; try done. }
  assert (Hl2 : ∀ g fr0, hp !! g = Some fr0 -> ∃ fr', hp' !! g = Some fr').
  { intros g fr0 Hg. unfold hp'. destruct (decide (g = f)) as [->|Hgf].
    - rewrite lookup_alter. destruct (decide (f = h)) as [->|Hfh].
      + rewrite lookup_alter, Hf. cbn. eauto.
      + rewrite lookup_alter_ne, Hf by done. cbn. eauto.
    - rewrite lookup_alter_ne by done. destruct (decide (g = h)) as [->|Hgh].
      + rewrite lookup_alter, Hh. cbn. eauto.
      + rewrite lookup_alter_ne by done. eauto. }
  assert (Hp : ∀ y, pending y hp' st = if decide (y = h) then pending y hp st ++ [f] else pending y hp st).
  { intros y. unfold pending. destruct (hp !! y) as [fy|] eqn:Hy.
    - destruct (Hl2 _ _ Hy) as [fy' Hy']. rewrite Hy'.
      destruct (Hl _ _ Hy') as (fy0 & Hy0 & _ & _ & _ & _ & Ea & Ef). rewrite Hy in Hy0. simplify_eq.
      rewrite Ef, Ea. destruct (decide (y = h)) as [->|].
      + rewrite Hh in Hy. simplify_eq. by rewrite Hnf.
      + done.
    - destruct (hp' !! y) as [fy'|] eqn:Hy'.
      + destruct (Hl _ _ Hy') as (fy0 & Hy0 & _). congruence.
      + destruct (decide (y = h)) as [->|]; [congruence|done]. }
  split; try done.
  - intros x o g Hx Hg. destruct (I1 x o g Hx Hg) as (fr' & Hg' & ?).
    destruct (Hl2 _ _ Hg') as (fr2 & Hg2). destruct (Hl _ _ Hg2) as (fr0 & ? & E & _).
    exists fr2. split; [done|]. congruence.
  - intros g fr' Hg. destruct (Hl _ _ Hg) as (fr0 & Hg0 & ? & Erc & ? & ? & ? & Efin).
    unfold sref. rewrite Erc, Efin. by apply I2.
  - intros g Hg. destruct (I3 g Hg) as [fr' Hg']. destruct (Hl2 _ _ Hg') as (fr2 & ?). eauto.
  - intros g Hg. destruct (I4 g Hg) as (fr' & Hg' & ?).
    destruct (Hl2 _ _ Hg') as (fr2 & Hg2). destruct (Hl _ _ Hg2) as (fr0 & ? & ? & ? & ? & ? & ? & E).
    exists fr2. split; [done|]. congruence.
  - intros g fr' Hg Hr. destruct (Hl _ _ Hg) as (fr0 & ? & ? & ? & ? & E & ? & ?).
    destruct (decide (g = f)) as [->|]; [congruence|].
    assert (Hin : Co g ∈ (Co f :: xa) ++ actors st) by (eapply I6; [done|congruence]).
    cbn [app] in Hin. apply elem_of_cons in Hin as [?|?]; [congruence|done].
  - intros g Hg. destruct (I7 g) as (fr' & Hg' & ?); [cbn [app]; by apply elem_of_list_further|].
    destruct (Hl2 _ _ Hg') as (fr2 & Hg2). destruct (Hl _ _ Hg2) as (fr0 & ? & ? & ? & ? & E & ? & ?).
    exists fr2. split; [done|]. rewrite E. rewrite decide_False; [congruence|]. intros ->. done.
  - intros g fr' Hg Hr. destruct (Hl _ _ Hg) as (fr0 & ? & ? & ? & -> & E & ? & Ef). eapply I9; [done|congruence].
  - intros g fr' Hg Hr. destruct (Hl _ _ Hg) as (fr0 & ? & ? & ? & -> & E & ? & Ef). eapply I9'; [done|congruence].
  - intros g fr' y k' Hg Hr. destruct (Hl _ _ Hg) as (fr0 & ? & ? & ? & ? & E & ? & Ef).
    rewrite Hp. destruct (decide (g = f)) as [->|].
    + rewrite Hr in E. simplify_eq. rewrite decide_True by done. apply elem_of_app. right. by apply elem_of_list_singleton.
    + assert (g ∈ pending y hp st) by (eapply I10; [done|]; rewrite <- E; exact Hr).
      destruct (decide (y = h)); [apply elem_of_app; by left|done].
  - intros g y. rewrite Hp. intros Hg.
    assert (Hg2 : g ∈ pending y hp st ∨ (g = f ∧ y = h)).
    { destruct (decide (y = h)); [|by left]. apply elem_of_app in Hg as [?|Hg]; [by left|].
      apply elem_of_list_singleton in Hg. by right. }
    destruct Hg2 as [Hg2|[-> ->]].
    + assert (g ≠ f) by (intros ->; by eapply Hnp).
      destruct (I11 g y Hg2) as (fr' & k' & Hg' & ?).
      destruct (Hl2 _ _ Hg') as (fr2 & Hg3). destruct (Hl _ _ Hg3) as (fr0 & ? & ? & ? & ? & E & ? & ?).
      exists fr2, k'. split; [done|]. rewrite E, decide_False by done. congruence.
    + destruct (Hl2 _ _ Hf) as (fr2 & Hg3). destruct (Hl _ _ Hg3) as (fr0 & ? & ? & ? & ? & E & ? & ?).
      exists fr2, k. split; [done|]. by rewrite E, decide_True.
  - intros y. rewrite Hp. destruct (decide (y = h)); [|auto].
    apply NoDup_app. split_and!; [auto| |apply NoDup_singleton].
    intros g Hg. rewrite elem_of_list_singleton. intros ->. by eapply Hnp.
  - intros g fr' p Hg Hr. destruct (Hl _ _ Hg) as (fr0 & ? & E0 & ? & ? & E & ? & ?). rewrite E0.
    destruct (decide (g = f)) as [->|]; [congruence|]. eapply I13; [done|]. rewrite <- E. exact Hr.
  - intros g [fr' Hg]. destruct (Hl _ _ Hg) as (fr0 & ? & _). eauto.
  - intros q Hq. apply I16. cbn [app]. by apply elem_of_list_further.
Qed.

(** The body of f ends. *)
Lemma inv_finish xr xa hp ob st n m f fr o :
  InvC xr (Co f :: xa) hp ob st n m -> hp !! f = Some fr ->
  InvC xr xa (alter (fun fr => fr_result (Some o) (fr_status Final fr)) f hp) ob
    (FinalSusp f (fawaiters fr) :: st) n m.
Proof.
  intros I Hf. destruct (inv_act _ _ _ _ _ _ _ I f) as (fr' & Hf' & Hst); [apply elem_of_list_here|].
  assert (fr' = fr) by congruence. subst fr'. clear Hf'.
  pose proof (inv_and _ _ _ _ _ _ _ I) as Hnd. cbn [app] in Hnd. apply NoDup_cons in Hnd as [Hnin Hnd].
  destruct I as [I1 I2 I3 I4 I5 I6 I7 I8 I9 I9' I10 I11 I12 I13 I14 I15 I16 I17].
  set (g0 := fun fr : frame => _). set (hp' := alter g0 f hp).
  assert (Hff : is_final fr = false) by (unfold is_final; by rewrite Hst).
  assert (Hnff : f ∉ finals st).
  { intros Hin. destruct (I4 f Hin) as (fr2 & ? & ?). congruence. }
  assert (Hsame : hp' !! f = Some (g0 fr)) by (unfold hp'; rewrite lookup_alter, Hf; done).
  assert (Hother : ∀ g, g ≠ f -> hp' !! g = hp !! g) by (intros; by apply lookup_alter_ne).
  assert (Hl : ∀ g fr2, hp' !! g = Some fr2 -> (g = f ∧ fr2 = g0 fr) ∨ (g ≠ f ∧ hp !! g = Some fr2)).
  { intros g fr2 Hg. destruct (decide (g = f)) as [->|]; [left|right; by rewrite Hother in Hg].
    split; [done|]. congruence. }
  assert (Hp : ∀ y, pending y hp' (FinalSusp f (fawaiters fr) :: st) = pending y hp st).
  { intros y. unfold pending. rewrite fin_list_cons. cbn [item_pend]. destruct (decide (y = f)) as [->|].
    - rewrite Hsame, Hf, Hff. cbn. rewrite fin_list_notin by done. by rewrite app_nil_r.
    - by rewrite Hother. }
  assert (Hact : actors (FinalSusp f (fawaiters fr) :: st) = actors st) by done.
  assert (Hfin : finals (FinalSusp f (fawaiters fr) :: st) = f :: finals st) by done.
  split; rewrite ?Hact, ?Hfin; try done.
  - intros x ob' g Hx Hg. destruct (I1 x ob' g Hx Hg) as (fr2 & Hg' & ?).
    destruct (decide (g = f)) as [->|]; [|rewrite Hother by done; eauto].
    rewrite Hsame. eexists. split; [done|]. cbn. congruence.
  - intros g fr2 Hg. destruct (Hl _ _ Hg) as [[-> ->]|[Hne Hg2]].
    + destruct (I2 f fr Hf) as [E ?]. unfold sref in *. rewrite Hff in E.
      change (frc (g0 fr)) with (frc fr). change (is_final (g0 fr)) with true. rewrite Hfin.
      rewrite decide_True by apply elem_of_list_here. done.
    + destruct (I2 g fr2 Hg2) as [E ?]. split; [|done]. rewrite E. unfold sref.
      destruct (is_final fr2); [|done]. rewrite Hfin.
      destruct (decide (g ∈ finals st)) as [Hin|Hin].
      * rewrite decide_True; [done|by apply elem_of_list_further].
      * rewrite decide_False; [done|]. rewrite elem_of_cons. intros [?|?]; done.
  - intros g Hg. destruct (decide (g = f)) as [->|]; [rewrite Hsame; eauto|rewrite Hother by done; eauto].
  - intros g Hg. destruct (decide (g = f)) as [->|].
    + rewrite Hsame. eauto.
    + rewrite Hother by done. apply I4. apply elem_of_cons in Hg as [?|?]; [done|done].
  - by apply NoDup_cons.
  - intros g fr2 Hg Hr. destruct (Hl _ _ Hg) as [[-> ->]|[Hne Hg2]]; [done|].
    pose proof (I6 g fr2 Hg2 Hr) as Hin. cbn [app] in Hin. apply elem_of_cons in Hin as [?|?]; [congruence|done].
  - intros g Hg. destruct (I7 g) as (fr2 & Hg2 & ?); [cbn [app]; by apply elem_of_list_further|].
    rewrite Hother; [eauto|]. intros ->. done.
  - intros g fr2 Hg Hr. destruct (Hl _ _ Hg) as [[-> ->]|[Hne Hg2]]; cbn; eauto.
  - intros g fr2 Hg Hr. destruct (Hl _ _ Hg) as [[-> ->]|[Hne Hg2]]; [done|]. eauto.
  - intros g fr2 y k Hg Hr. rewrite Hp. destruct (Hl _ _ Hg) as [[-> ->]|[Hne Hg2]]; [done|eauto].
  - intros g y. rewrite Hp. intros Hg. destruct (I11 g y Hg) as (fr2 & k & Hg2 & ?).
    rewrite Hother; [eauto|]. intros ->. congruence.
  - intros y. rewrite Hp. auto.
  - intros g fr2 p Hg Hr. destruct (Hl _ _ Hg) as [[-> ->]|[Hne Hg2]]; [done|eauto].
  - intros g [fr2 Hg]. destruct (Hl _ _ Hg) as [[-> ->]|[Hne Hg2]]; eauto.
  - intros q Hq. apply I16. cbn [app]. by apply elem_of_list_further.
  - by constructor.
Qed.

(** Popping a completed final suspend: its self reference becomes the one to release. *)
Lemma inv_final_pop xa hp ob st n m h :
  InvC None xa hp ob (FinalSusp h [] :: st) n m -> InvC (Some h) xa hp ob st n m.
Proof.
  intros [I1 I2 I3 I4 I5 I6 I7 I8 I9 I9' I10 I11 I12 I13 I14 I15 I16 I17].
  rewrite finals_cons in *. cbn [item_finals app] in *. rewrite actors_cons in *. cbn [item_actors app] in *.
  apply NoDup_cons in I5 as [Hnin I5].
  assert (Hp : ∀ y, pending y hp (FinalSusp h [] :: st) = pending y hp st).
  { intros y. unfold pending. rewrite fin_list_cons. cbn [item_pend].
    destruct (decide (y = h)); done. }
  split; try done.
  - intros f fr Hf. destruct (I2 f fr Hf) as [E ?]. split; [|done]. rewrite E. unfold sref, xcount.
    rewrite finals_cons. cbn [item_finals app].
    destruct (decide (h = f)) as [->|Hne].
    + destruct (I4 f) as (fr' & ? & Hfin); [apply elem_of_list_here|]. simplify_eq. rewrite Hfin.
      rewrite (decide_True (P := f ∈ f :: finals st)) by apply elem_of_list_here.
      rewrite decide_False by done. rewrite decide_False by done. rewrite decide_True by done. lia.
    + rewrite (decide_False (P := Some h = Some f)) by congruence.
      rewrite (decide_False (P := None = Some f)) by done.
      destruct (is_final fr); [|done].
      destruct (decide (f ∈ finals st)) as [Hin|Hin].
      * rewrite decide_True; [done|by apply elem_of_list_further].
      * rewrite decide_False; [done|]. rewrite elem_of_cons. intros [?|?]; congruence.
  - intros g Hg. simplify_eq. destruct (I4 g) as (fr' & ? & Hfin); [apply elem_of_list_here|]. eauto.
  - intros f Hf. apply I4. by apply elem_of_list_further.
  - intros f fr y k. rewrite <- Hp. eauto.
  - intros f y. rewrite <- Hp. eauto.
  - intros y. rewrite <- Hp. eauto.
  - by eapply Forall_inv_tail.
Qed.

(** Resuming the next awaiter of a finishing coroutine. *)
Lemma inv_wake xa hp ob st n m h a l :
  InvC None xa hp ob (FinalSusp h (a :: l) :: st) n m ->
  ∃ fa k fh o, hp !! a = Some fa ∧ fstatus fa = AwaitTask h k ∧ hp !! h = Some fh ∧ is_final fh = true ∧
    fresult fh = Some o ∧ a ≠ h ∧
    InvC None (Co a :: xa) (alter (fr_status Running) a hp) ob (FinalSusp h l :: st) n m.
Proof.
  intros [I1 I2 I3 I4 I5 I6 I7 I8 I9 I9' I10 I11 I12 I13 I14 I15 I16 I17].
  rewrite finals_cons in *. cbn [item_finals app] in *.
  rewrite actors_cons in *. cbn [item_actors app] in *.
  destruct (I4 h) as (fh & Hh & Hfin); [apply elem_of_list_here|].
  destruct (I9 h fh Hh Hfin) as [o Ho].
  pose proof I5 as Hnd. apply NoDup_cons in Hnd as [Hnin Hnd].
  assert (Hph : pending h hp (FinalSusp h (a :: l) :: st) = a :: l).
  { unfold pending. rewrite Hh, Hfin, fin_list_cons. cbn [item_pend]. rewrite decide_True by done.
    rewrite fin_list_notin by done. by rewrite app_nil_r. }
  destruct (I11 a h) as (fa & k & Ha & Hst); [rewrite Hph; apply elem_of_list_here|].
  exists fa, k, fh, o.
  assert (Hah : a ≠ h).
  { intros ->. simplify_eq. unfold is_final in Hfin. by rewrite Hst in Hfin. }
  split_and!; try done.
  pose proof (I12 h) as Hnda. rewrite Hph in Hnda. apply NoDup_cons in Hnda as [Hal Hndl].
  assert (Hfa : is_final fa = false) by (unfold is_final; by rewrite Hst).
  set (hp' := alter _ a hp).
  assert (Hsame : hp' !! a = Some (fr_status Running fa)) by (unfold hp'; rewrite lookup_alter, Ha; done).
  assert (Hother : ∀ g, g ≠ a -> hp' !! g = hp !! g) by (intros; by apply lookup_alter_ne).
  assert (Hl : ∀ g fr2, hp' !! g = Some fr2 -> (g = a ∧ fr2 = fr_status Running fa) ∨ (g ≠ a ∧ hp !! g = Some fr2)).
  { intros g fr2 Hg. destruct (decide (g = a)) as [->|]; [left|right; by rewrite Hother in Hg].
    split; [done|]. congruence. }
  assert (Hp : ∀ y, pending y hp' (FinalSusp h l :: st) =
      if decide (y = h) then l else pending y hp (FinalSusp h (a :: l) :: st)).
  { intros y. destruct (decide (y = h)) as [->|Hne].
    - unfold pending. rewrite Hother, Hh, Hfin by done. rewrite fin_list_cons. cbn [item_pend].
      rewrite decide_True by done. rewrite fin_list_notin by done. by rewrite app_nil_r.
    - unfold pending. rewrite !fin_list_cons. cbn [item_pend]. rewrite !decide_False by done.
      destruct (decide (y = a)) as [->|].
      + rewrite Hsame, Ha, Hfa. done.
      + by rewrite Hother. }
  assert (Hna : Co a ∉ xa ++ actors st).
  { intros Hin. destruct (I7 a Hin) as (fr2 & ? & ?). congruence. }
  assert (Hoth : ∀ y, y ≠ h -> a ∉ pending y hp (FinalSusp h (a :: l) :: st)).
  { intros y Hy Hin. destruct (I11 a y Hin) as (fr2 & k2 & ? & ?). congruence. }
  split; rewrite ?finals_cons; rewrite ?actors_cons; cbn [item_finals item_actors app]; try done.
  - intros x ob' g Hx Hg. destruct (I1 x ob' g Hx Hg) as (fr2 & Hg' & ?).
    destruct (decide (g = a)) as [->|]; [|rewrite Hother by done; eauto].
    rewrite Hsame. eexists. split; [done|]. cbn. congruence.
  - intros g fr2 Hg. destruct (Hl _ _ Hg) as [[-> ->]|[Hne Hg2]].
    + destruct (I2 a fa Ha) as [E ?]. cbn. split; [|done]. rewrite E.
      unfold sref. rewrite Hfa. cbn. done.
    + apply (I2 g fr2 Hg2).
  - intros g Hg. destruct (I4 g Hg) as (fr2 & Hg2 & Hf2). rewrite Hother; [eauto|].
    intros ->. simplify_eq. congruence.
  - intros g fr2 Hg Hr. apply elem_of_cons. destruct (Hl _ _ Hg) as [[-> ->]|[Hne Hg2]]; [by left|right; eauto].
  - intros g Hg. apply elem_of_cons in Hg as [Hg|Hg].
    + simplify_eq. rewrite Hsame. eauto.
    + destruct (I7 g Hg) as (fr2 & Hg2 & ?). rewrite Hother; [eauto|]. intros ->. done.
  - by apply NoDup_cons.
  - intros g fr2 Hg Hr. destruct (Hl _ _ Hg) as [[-> ->]|[Hne Hg2]]; [|eauto]. done.
  - intros g fr2 Hg Hr. destruct (Hl _ _ Hg) as [[-> ->]|[Hne Hg2]]; [|eauto]. cbn. eauto.
  - intros g fr2 y k' Hg Hr. destruct (Hl _ _ Hg) as [[-> ->]|[Hne Hg2]]; [done|].
    rewrite Hp. pose proof (I10 g fr2 y k' Hg2 Hr) as Hin. destruct (decide (y = h)) as [->|]; [|done].
    rewrite Hph in Hin. apply elem_of_cons in Hin as [?|?]; done.
  - intros g y. rewrite Hp. intros Hg.
    assert (g ≠ a).
    { intros ->. destruct (decide (y = h)) as [->|Hne]; [done|]. by apply (Hoth y Hne). }
    rewrite Hother by done. apply (I11 g y). destruct (decide (y = h)) as [->|]; [|done].
    rewrite Hph. by apply elem_of_list_further.
  - intros y. rewrite Hp. destruct (decide (y = h)); [done|auto].
  - intros g fr2 p Hg Hr. destruct (Hl _ _ Hg) as [[-> ->]|[Hne Hg2]]; [done|eauto].
  - intros g [fr2 Hg]. destruct (Hl _ _ Hg) as [[-> ->]|[Hne Hg2]]; eauto.
  - intros q Hq. apply I16. apply elem_of_cons in Hq as [?|?]; done.
  - constructor; [done|by eapply Forall_inv_tail].
Qed.

(** A new coroutine frame and its Task object. *)
Lemma inv_new xa hp ob st n m k x ps :
  InvC None xa hp ob st n m ->
  ∀ xa' t m', (x = Running ∧ xa' = Co n :: xa ∨ k = KLazy ∧ (∃ p, x = Initial p) ∧ xa' = xa) ->
  ob !! t = None -> t < m' -> m <= m' ->
  InvC None xa' (<[n := new_frame k x ps]> hp) (<[t := Obj k (Some n)]> ob) st (S n) m'.
Proof.
  intros [I1 I2 I3 I4 I5 I6 I7 I8 I9 I9' I10 I11 I12 I13 I14 I15 I16 I17] xa' t m' Hk Ht Htm Hm.
  assert (Hx : simple_status x) by (destruct Hk as [[-> ?]|(? & [p ->] & ?)]; done).
  assert (Hn : hp !! n = None).
  { destruct (hp !! n) eqn:E; [|done]. assert (n < n) by (apply I14; eauto). lia. }
  assert (Hother : ∀ g (fr : frame), hp !! g = Some fr -> g ≠ n) by (intros g fr Hg ->; congruence).
  assert (Hr0 : refs ob n = 0).
  { apply refs_zero_intro. intros y o Hy Ho. destruct (I1 y o n Hy Ho) as (fr & ? & _). congruence. }
  assert (Hnf : is_final (new_frame k x ps) = false) by (unfold is_final; cbn; by destruct x).
  assert (Hnfin : n ∉ finals st).
  { intros Hin. destruct (I4 n Hin) as (fr & ? & _). congruence. }
  assert (Hnact : Co n ∉ xa ++ actors st).
  { intros Hin. destruct (I7 n Hin) as (fr & ? & _). congruence. }
  assert (Hp : ∀ y, pending y (<[n:=new_frame k x ps]> hp) st = pending y hp st).
  { intros y. unfold pending. destruct (decide (y = n)) as [->|].
    - rewrite lookup_insert, Hn, Hnf. done.
    - by rewrite lookup_insert_ne. }
  assert (Hxa : ∀ a, a ∈ xa' ++ actors st <-> a ∈ xa ++ actors st ∨ (a = Co n ∧ x = Running)).
  { intros a. destruct Hk as [[-> ->]|(? & [p ->] & ->)].
    - cbn [app]. rewrite elem_of_cons. naive_solver.
    - naive_solver. }
  assert (Hxn : NoDup (xa' ++ actors st)).
  { destruct Hk as [[-> ->]|(? & [p ->] & ->)]; [|done]. cbn [app]. by apply NoDup_cons. }
  split; try done.
  - intros y o h Hy Ho. destruct (decide (y = t)) as [->|].
    + rewrite lookup_insert in Hy. simplify_eq/=. rewrite lookup_insert. eauto.
    + rewrite lookup_insert_ne in Hy by done. destruct (I1 y o h Hy Ho) as (fr & ? & ?).
      rewrite lookup_insert_ne; [eauto|]. intros <-. by eapply Hother.
  - intros f fr Hf. rewrite refs_insert_fresh by done. unfold hcount. cbn.
    destruct (decide (f = n)) as [->|Hne].
    + rewrite lookup_insert in Hf. simplify_eq/=. rewrite decide_True by done. rewrite Hr0.
      unfold sref. rewrite Hnf. unfold xcount. rewrite decide_False by done. lia.
    + rewrite lookup_insert_ne in Hf by done. rewrite decide_False by congruence.
      cbn. by apply I2.
  - intros f Hf. rewrite lookup_insert_ne; [auto|]. intros <-. done.
  - intros f fr Hf Hr. apply Hxa. destruct (decide (f = n)) as [->|].
    + rewrite lookup_insert in Hf. simplify_eq/=. by right.
    + rewrite lookup_insert_ne in Hf by done. left. eauto.
  - intros f Hf. apply Hxa in Hf as [Hf|[Hf Hr]].
    + rewrite lookup_insert_ne; [auto|]. intros <-. done.
    + simplify_eq. rewrite lookup_insert. eauto.
  - intros f fr Hf Hfin. destruct (decide (f = n)) as [->|].
    + rewrite lookup_insert in Hf. simplify_eq/=. congruence.
    + rewrite lookup_insert_ne in Hf by done. eauto.
  - intros f fr Hf Hfin. destruct (decide (f = n)) as [->|].
    + rewrite lookup_insert in Hf. simplify_eq/=. done.
    + rewrite lookup_insert_ne in Hf by done. eauto.
  - intros f fr h k' Hf Hst. rewrite Hp. destruct (decide (f = n)) as [->|].
    + rewrite lookup_insert in Hf. simplify_eq/=. done.
    + rewrite lookup_insert_ne in Hf by done. eauto.
  - intros f h. rewrite Hp. intros Hf. destruct (I11 f h Hf) as (fr & k' & ? & ?).
    rewrite lookup_insert_ne; [eauto|]. intros <-. by eapply Hother.
  - intros h. rewrite Hp. auto.
  - intros f fr p Hf Hst. destruct (decide (f = n)) as [->|].
    + rewrite lookup_insert in Hf. simplify_eq/=. destruct Hk as [[? ?]|[? ?]]; [congruence|done].
    + rewrite lookup_insert_ne in Hf by done. eauto.
  - intros f [fr Hf]. destruct (decide (f = n)) as [->|]; [lia|].
    rewrite lookup_insert_ne in Hf by done. assert (f < n) by eauto. lia.
  - intros y [o Hy]. destruct (decide (y = t)) as [->|]; [lia|].
    rewrite lookup_insert_ne in Hy by done. assert (y < m) by eauto. lia.
  - intros q Hq. apply Hxa in Hq as [Hq|[? ?]]; [|done]. assert (q < n) by auto. lia.
Qed.

(** Emptying a Task object leaves a reference to be released. *)
Lemma inv_null_obj xa hp ob st n m x o :
  InvC None xa hp ob st n m -> ob !! x = Some o ->
  InvC (ohandle o) xa hp (<[x := Obj (okind o) None]> ob) st n m.
Proof.
  intros [] Hx. split; try done.
  - intros y o' h Hy Ho. destruct (decide (y = x)) as [->|].
    + rewrite lookup_insert in Hy. by simplify_eq/=.
    + rewrite lookup_insert_ne in Hy by done. eauto.
  - intros f fr Hf. destruct (inv_rc0 f fr Hf) as [E ?]. split; [|done]. rewrite E.
    pose proof (refs_insert ob x o (Obj (okind o) None) f Hx) as E2. rewrite hcount_none in E2.
    unfold hcount in E2. unfold xcount. rewrite (decide_False (P := None = Some f)) by done. 
    destruct (decide (ohandle o = Some f)); lia.
  - intros h Hh. destruct (inv_obj0 x o h Hx Hh) as (fr & ? & ?). eauto.
  - intros y [o' Hy]. destruct (decide (y = x)) as [->|]; [eauto|].
    rewrite lookup_insert_ne in Hy by done. eauto.
Qed.
End inv.
