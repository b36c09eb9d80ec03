(** * By-value Task parameters of coroutines (then() on a temporary). *)
From stdpp Require Import gmap list.
From Verif Require Import TaskModel TaskInv TaskSafe.

Section params.
Context {V : Type} (mv : V -> V) (dflt : V).
Notation state := (state V). Notation item := (item V). Notation frame := (frame V).
Notation event := (event V).
Notation step := (step mv dflt). Notation env_step := (env_step mv dflt).

Definition item_drops (i : item) : list nat := match i with Drops l => l | _ => [] end.
Definition pdrops (st : list item) : list nat := flat_map item_drops st.
Lemma pdrops_cons i st : pdrops (i :: st) = item_drops i ++ pdrops st.
Proof. done. Qed.
Arguments pdrops st : simpl never.

Definition hpar (hp : gmap nat frame) (f : nat) : option (list nat) := fparams <$> hp !! f.
Definition is_call (e : event) : Prop := match e with EAct _ (ACall _ _ _) => True | _ => False end.

Record PC (hp : gmap nat frame) (ob : gmap nat tobj) (st : list item) (tr : list event) (n_f n_t : nat) : Prop := {
  p_in : ∀ f l p, hpar hp f = Some l -> p ∈ l -> p < n_t ∧ p ∉ pdrops st;
  p_disj : ∀ f g l l' p, hpar hp f = Some l -> hpar hp g = Some l' -> p ∈ l -> p ∈ l' -> f = g;
  p_obj : ∀ f l p, hpar hp f = Some l -> p ∈ l -> is_Some (ob !! p) ∨ ∃ w, EAct w (ADrop p) ∈ tr;
  p_call : ∀ w t f ps, EAct w (ACall t f ps) ∈ tr -> f < n_f ∧
     match hpar hp f with
     | Some l => l = ps
     | None => ∀ p, p ∈ ps -> p < n_t ∧ (ob !! p = None ∨ p ∈ pdrops st)
     end;
  p_drops : ∀ p, p ∈ pdrops st -> p < n_t;
  p_bf : ∀ f, n_f <= f -> hp !! f = None;
  p_bt : ∀ x, is_Some (ob !! x) -> x < n_t;
}.
Definition P (s : state) : Prop := PC (heap s) (objs s) (stack s) (trace s) (nf s) (nt s).

Lemma p_same es hp hp' ob ob' st st' tr n n' m m' :
  PC hp ob st tr n m -> (∀ f, hpar hp' f = hpar hp f) ->
  (∀ x, is_Some (ob !! x) -> is_Some (ob' !! x)) -> (∀ x, x < m -> ob !! x = None -> ob' !! x = None) ->
  (∀ x, is_Some (ob' !! x) -> x < m') ->
  pdrops st' = pdrops st -> Forall (λ e, ¬ is_call e) es -> n <= n' -> m <= m' ->
  PC hp' ob' st' (es ++ tr) n' m'.
Proof.
  intros [P1 P2 P3 P4 P5 P6 P7] Hp Ho1 Ho2 Ho3 Hd He Hn Hm. split.
  - intros f l p. rewrite Hp, Hd. intros H1 H2. destruct (P1 _ _ _ H1 H2). split; [lia|done].
  - intros f g l l' p. rewrite !Hp. eauto.
  - intros f l p. rewrite Hp. intros H1 H2. destruct (P3 _ _ _ H1 H2) as [?|[w ?]]; [left; auto|right].
    exists w. apply elem_of_app. by right.
  - intros w t f ps [Hin|Hin]%elem_of_app.
    { rewrite Forall_forall in He. by specialize (He _ Hin). }
    destruct (P4 _ _ _ _ Hin) as [Hf H]. split; [lia|]. rewrite Hp. destruct (hpar hp f); [done|].
    intros p Hp'. destruct (H p Hp') as [? [?|?]]; (split; [lia|]); [left; auto|right; by rewrite Hd].
  - intros p. rewrite Hd. intros H%P5. lia.
  - intros f Hf. specialize (Hp f). unfold hpar in Hp. rewrite (P6 f) in Hp by lia. by destruct (hp' !! f).
  - done.
Qed.

Lemma hpar_alter (g : frame -> frame) f hp x : (∀ fr, fparams (g fr) = fparams fr) -> hpar (alter g f hp) x = hpar hp x.
Proof.
  intros H. unfold hpar. destruct (decide (x = f)) as [->|].
  - rewrite lookup_alter. destruct (hp !! f); cbn; by rewrite ?H.
  - by rewrite lookup_alter_ne.
Qed.

(** deref *)
Lemma p_deref h (s s' : state) : P s -> deref h s = Next s' -> P s'.
Proof.
  unfold P, deref. intros HP H. destruct (heap s !! h) as [fr|] eqn:Hh; [|done].
  destruct (frc fr) as [|[|k]]; [done| |].
  - destruct (is_final fr); [|done]. injection H as <-. cbn. destruct HP as [P1 P2 P3 P4 P5 P6 P7].
    assert (Hd : ∀ f l, hpar (delete h (heap s)) f = Some l -> f ≠ h ∧ hpar (heap s) f = Some l).
    { intros f l. unfold hpar. destruct (decide (f = h)) as [->|]; [by rewrite lookup_delete|].
      by rewrite lookup_delete_ne. }
    assert (Hhp : hpar (heap s) h = Some (fparams fr)) by (unfold hpar; by rewrite Hh).
    split.
    + intros f l p [Hf Hl]%Hd Hp. destruct (P1 _ _ _ Hl Hp). split; [done|].
      rewrite pdrops_cons. cbn. intros [Hin|Hin]%elem_of_app; [|done]. by apply Hf, (P2 f h l (fparams fr) p).
    + intros f g l l' p [? Hf]%Hd [? Hg]%Hd. eauto.
    + intros f l p [Hf Hl]%Hd Hp. destruct (P3 _ _ _ Hl Hp) as [?|[w ?]]; [by left|right]. exists w. by right.
    + intros w t f ps [?|Hin]%elem_of_cons; [done|]. destruct (P4 _ _ _ _ Hin) as [Hf H]. split; [done|].
      destruct (decide (f = h)) as [->|Hne].
      * unfold hpar. rewrite lookup_delete. cbn. rewrite Hhp in H. subst ps.
        intros p Hp. destruct (P1 _ _ _ Hhp Hp). split; [done|]. right. rewrite pdrops_cons. apply elem_of_app. by left.
      * unfold hpar in *. rewrite lookup_delete_ne by done. destruct (fparams <$> heap s !! f); [done|].
        intros p Hp. destruct (H p Hp) as [? [?|?]]; (split; [done|]); [by left|right].
        rewrite pdrops_cons. apply elem_of_app. by right.
    + intros p. rewrite pdrops_cons. intros [Hin|Hin]%elem_of_app; [|auto]. by apply (P1 _ _ _ Hhp Hin).
    + intros f Hf. destruct (decide (f = h)) as [->|]; [by rewrite lookup_delete|]. rewrite lookup_delete_ne by done. auto.
    + done.
  - injection H as <-. cbn. apply (p_same [] _ _ _ _ _ _ _ _ _ _ _ HP); try done.
    + intros f. by apply hpar_alter.
    + apply (p_bt _ _ _ _ _ _ HP).
Qed.

(** Removing the object [x]. *)
Lemma p_drop x (s s' : state) hp ob st tr n m :
  heap s = hp -> objs s = ob -> stack s = st -> trace s = tr -> nf s = n -> nt s = m ->
  ((∃ st', P (set_stack st' s) ∧ item_drops (Drops [x]) ++ pdrops st = pdrops st') ∨
   (P s ∧ ∃ w, EAct w (ADrop x) ∈ tr)) ->
  drop_obj x s = Next s' -> P s'.
Proof.
  intros <- <- <- <- <- <- Hc. unfold drop_obj. destruct (objs s !! x) as [o|] eqn:Hx; [|done].
  assert (HP : P (set_objs (delete x (objs s)) s)).
  { unfold P in *. cbn in *. destruct Hc as [(st' & [P1 P2 P3 P4 P5 P6 P7] & Hst)|[[P1 P2 P3 P4 P5 P6 P7] [w Hw]]].
    - cbn in *. split; try done.
      + intros f l p H1 H2. destruct (P1 _ _ _ H1 H2) as [? Hn]. split; [done|]. rewrite <- Hst in Hn.
        intros Hin. apply Hn. by right.
      + intros f l p H1 H2. destruct (P1 _ _ _ H1 H2) as [? Hn]. rewrite <- Hst in Hn.
        rewrite lookup_delete_ne; [eauto|]. intros ->. apply Hn. left.
      + intros w t f ps Hin. destruct (P4 _ _ _ _ Hin) as [Hf H]. split; [done|]. destruct (hpar (heap s) f); [done|].
        intros p Hp. destruct (H p Hp) as [? Hor]. split; [done|].
        destruct (decide (p = x)) as [->|]; [left; by rewrite lookup_delete|].
        rewrite lookup_delete_ne by done. destruct Hor as [?|Hor]; [by left|right].
        rewrite <- Hst in Hor. apply elem_of_cons in Hor as [?|?]; done.
      + intros p Hp. apply P5. rewrite <- Hst. by right.
      + intros y Hy. apply P7. destruct (decide (y = x)) as [->|]; [eauto|by rewrite lookup_delete_ne in Hy].
    - split; try done.
      + intros f l p H1 H2. destruct (decide (p = x)) as [->|]; [right; eauto|]. rewrite lookup_delete_ne by done. eauto.
      + intros w' t f ps Hin. destruct (P4 _ _ _ _ Hin) as [Hf H]. split; [done|]. destruct (hpar (heap s) f); [done|].
        intros p Hp. destruct (H p Hp) as [? Hor]. split; [done|].
        destruct (decide (p = x)) as [->|]; [left; by rewrite lookup_delete|].
        by rewrite lookup_delete_ne.
      + intros y Hy. apply P7. destruct (decide (y = x)) as [->|]; [eauto|by rewrite lookup_delete_ne in Hy]. }
  destruct (ohandle o); [|by intros [= <-]]. by apply p_deref.
Qed.

Ltac same es HP := apply (p_same es _ _ _ _ _ _ _ _ _ _ _ HP);
  [try (intros ?; rewrite ?hpar_alter by done; done)|done|done|try exact (p_bt _ _ _ _ _ _ HP)|done
  |repeat constructor; intros ?; assumption|lia|lia].

Lemma p_finish f o (s s' : state) : P s -> finish f o s = Next s' -> P s'.
Proof.
  unfold P, finish. intros HP H. destruct (heap s !! f); [|done]. injection H as <-. cbn. same ([EFinish f o] : list event) HP.
Qed.

Lemma p_take h (s s1 : state) o : P s -> take_result mv h s = (o, s1) -> P s1.
Proof.
  unfold P, take_result. intros HP H. repeat (case_match; simplify_eq; try done). cbn. same ([] : list event) HP.
Qed.

Lemma p_await f x k (s s' : state) : P s -> do_await mv f x k s = Next s' -> P s'.
Proof.
  unfold do_await. intros HP H.
  destruct (objs s !! x) as [ob|]; [|done]. destruct (ohandle ob) as [h|].
  - destruct (heap s !! h) as [fr|] eqn:Hh; [|done]. destruct (is_final fr).
    + destruct (take_result mv h s) as [[o|] s1] eqn:E; [|done]. injection H as <-.
      pose proof (p_take _ _ _ _ HP E) as HP'. unfold P in *. cbn. same ([ENow f h o] : list event) HP'.
    + destruct (okind ob).
      * injection H as <-. unfold P in *. cbn. same ([EWait f h] : list event) HP.
      * destruct (fstatus fr); try done. injection H as <-. unfold P in *. cbn. same ([EStart h; EWait f h] : list event) HP.
  - destruct (okind ob); [|done]. injection H as <-. unfold P in *. cbn. same ([EHang f] : list event) HP.
Qed.

Lemma move_all_dom ps : ∀ m n m' l, move_all ps m n = Some (m', l) -> (∀ x, is_Some (m !! x) -> x < n) ->
  ∀ x, x < n -> m !! x = None -> m' !! x = None.
Proof.
  intros m n m' l H Hlt x Hx Hn. destruct (move_all_spec ps m n m' l Hlt H) as (_ & _ & Hs & _).
  destruct (m' !! x) eqn:E; [|done]. exfalso. assert (is_Some (m !! x)) as [? ?] by (apply Hs; eauto). congruence.
Qed.

Lemma p_user w p st (s s' : state) : P (set_stack (Run w (CUser p) :: st) s) -> stack s = st ->
  step_user mv w p s = Next s' -> P s'.
Proof.
  intros HP Hst H. assert (HP0 : P s).
  { unfold P in *. cbn in *. subst st. same ([] : list event) HP. }
  clear HP. rename HP0 into HP. clear st Hst.
  destruct p; cbn in H.
  - destruct w; [by eapply p_finish|]. by injection H as <-.
  - destruct w; [by eapply p_finish|done].
  - injection H as <-. unfold P in *. cbn. same ([EObs w o] : list event) HP.
  - (* call *)
    destruct (move_all ps (objs s) (S (nt s))) as [[m ps']|] eqn:Hm; [|done].
    assert (Hb : ∀ x, is_Some (objs s !! x) -> x < S (nt s)).
    { intros x Hx. pose proof (p_bt _ _ _ _ _ _ HP x Hx). lia. }
    pose proof (move_all_spec ps _ _ _ _ Hb Hm) as (_ & Hlt & Hsame & Hmono & _ & _ & Hl).
    pose proof (move_all_dom _ _ _ _ _ Hm Hb) as Hdom.
    set (t := nt s) in *. set (f := nf s) in *.
    assert (Hgen : ∀ st0 es stk, Forall (λ e, ¬ is_call e) es -> pdrops stk = pdrops (stack s) ->
      PC (<[f:=new_frame k st0 ps']> (heap s)) (<[t:=Obj k (Some f)]> m) stk
         (es ++ EAct w (ACall t f ps') :: trace s) (S f) (S t + length ps)).
    { intros st0 es stk He Hstk. unfold P in HP. destruct HP as [P1 P2 P3 P4 P5 P6 P7].
      assert (Hhp : ∀ g l, hpar (<[f:=new_frame k st0 ps']> (heap s)) g = Some l ->
         (g = f ∧ l = ps') ∨ (g ≠ f ∧ hpar (heap s) g = Some l)).
      { intros g l. unfold hpar. destruct (decide (g = f)) as [->|].
        - rewrite lookup_insert. cbn. intros [= <-]. by left.
        - rewrite lookup_insert_ne by done. by right. }
      split.
      - intros g l p [[-> ->]|[Hg Hgl]]%Hhp Hp.
        + apply Hl in Hp. split; [lia|]. rewrite Hstk. intros Hin%P5. lia.
        + destruct (P1 _ _ _ Hgl Hp). split; [lia|by rewrite Hstk].
      - intros g g' l l' p [[-> ->]|[Hg Hgl]]%Hhp [[-> ->]|[Hg' Hgl']]%Hhp Hp Hp'; [done|..].
        + apply Hl in Hp. destruct (P1 _ _ _ Hgl' Hp'). lia.
        + apply Hl in Hp'. destruct (P1 _ _ _ Hgl Hp). lia.
        + eauto.
      - intros g l p [[-> ->]|[Hg Hgl]]%Hhp Hp.
        + left. rewrite lookup_insert_ne by (apply Hl in Hp; lia). clear -Hm Hp Hb.
          (* every fresh parameter object exists *)
          assert (G : ∀ ps m0 n m ps', move_all ps m0 n = Some (m, ps') -> (∀ x, is_Some (m0 !! x) -> x < n) ->
             ∀ p, p ∈ ps' -> is_Some (m !! p)).
          { clear. induction ps as [|x ps IH]; intros m0 n m ps' H Hb p Hp; cbn in H.
            - injection H as <- <-. by apply elem_of_nil in Hp.
            - destruct (m0 !! x) as [ob|] eqn:Ex; [|done]. destruct (move_all ps _ _) as [[m1 l1]|] eqn:E; [|done].
              injection H as <- <-.
              assert (Hb' : ∀ y, is_Some (<[n := ob]> (<[x := Obj (okind ob) None]> m0) !! y) -> y < S n).
              { intros y Hy. destruct (decide (y = n)) as [->|]; [lia|]. rewrite lookup_insert_ne in Hy by done.
                destruct (decide (y = x)) as [->|]; [assert (x < n) by eauto; lia|]. rewrite lookup_insert_ne in Hy by done.
                specialize (Hb y Hy). lia. }
              apply elem_of_cons in Hp as [->|Hp]; [|by eapply IH].
              pose proof (move_all_spec _ _ _ _ _ Hb' E) as (_ & _ & _ & Hmono & _).
              apply Hmono. rewrite lookup_insert. eauto. }
          by eapply G.
        + destruct (P3 _ _ _ Hgl Hp) as [Ho|[w' ?]].
          * left. pose proof (P7 _ Ho). rewrite lookup_insert_ne by lia. by apply Hmono.
          * right. exists w'. apply elem_of_app. right. by right.
      - intros w' t' g ps0 Hin. apply elem_of_app in Hin as [Hin|Hin].
        { rewrite Forall_forall in He. by specialize (He _ Hin). }
        apply elem_of_cons in Hin as [E|Hin].
        { injection E as -> -> -> ->. split; [lia|]. unfold hpar. by rewrite lookup_insert. }
        destruct (P4 _ _ _ _ Hin) as [Hg Hx]. split; [lia|]. unfold hpar in *. rewrite lookup_insert_ne by lia.
        destruct (fparams <$> heap s !! g); [done|]. intros p Hp. destruct (Hx p Hp) as [? [Hn|Hd]]; (split; [lia|]).
        + left. rewrite lookup_insert_ne by lia. apply Hdom; [lia|done].
        + right. by rewrite Hstk.
      - intros p. rewrite Hstk. intros Hp%P5. lia.
      - intros g Hg. rewrite lookup_insert_ne by lia. apply P6. lia.
      - intros x Hx. destruct (decide (x = t)) as [->|]; [lia|]. rewrite lookup_insert_ne in Hx by done.
        specialize (Hlt x Hx). lia. }
    destruct k.
    + injection H as <-. unfold P. cbn.
      apply (Hgen _ [EStart f; ECreate f KTask (CUser (body ps')) w]); [repeat constructor; intros ?; done|done].
    + injection H as <-. unfold P. cbn.
      apply (Hgen _ [ECreate f KLazy (CUser (body ps')) w]); [repeat constructor; intros ?; done|done].
  - destruct w; [by eapply p_await|done].
  - destruct w; [|done]. injection H as <-. unfold P in *. cbn. same ([ELeafWait f] : list event) HP.
  - injection H as <-. unfold P in *. cbn.
    apply (p_same ([EAct w (ANull (nt s))] : list event) _ _ _ _ _ _ _ _ _ _ _ HP); try done; try lia.
    + intros x Hx. destruct (decide (x = nt s)) as [->|]; [rewrite lookup_insert; eauto|by rewrite lookup_insert_ne].
    + intros x Hx Hn. by rewrite lookup_insert_ne by lia.
    + intros x Hx. destruct (decide (x = nt s)) as [->|]; [lia|]. rewrite lookup_insert_ne in Hx by done.
      pose proof (p_bt _ _ _ _ _ _ HP x Hx). lia.
    + repeat constructor. by intros ?.
  - destruct (objs s !! x) as [ob|] eqn:Hx; [|done]. injection H as <-. unfold P in *. cbn.
    assert (x < nt s) by (apply (p_bt _ _ _ _ _ _ HP); eauto).
    apply (p_same ([EAct w (AMove (nt s))] : list event) _ _ _ _ _ _ _ _ _ _ _ HP); try done; try lia.
    + intros y Hy. destruct (decide (y = nt s)) as [->|]; [rewrite lookup_insert; eauto|rewrite lookup_insert_ne by done].
      destruct (decide (y = x)) as [->|]; [rewrite lookup_insert; eauto|by rewrite lookup_insert_ne].
    + intros y Hy Hn. rewrite lookup_insert_ne by lia. rewrite lookup_insert_ne by congruence. done.
    + intros y Hy. destruct (decide (y = nt s)) as [->|]; [lia|]. rewrite lookup_insert_ne in Hy by done.
      destruct (decide (y = x)) as [->|]; [lia|]. rewrite lookup_insert_ne in Hy by done.
      pose proof (p_bt _ _ _ _ _ _ HP y Hy). lia.
    + repeat constructor. by intros ?.
  - destruct (objs s !! x) as [ox|] eqn:Hx; [|done]. destruct (objs s !! y) as [oy|] eqn:Hy; [|done].
    destruct (decide (x = y)) as [<-|Hne].
    + injection H as <-. unfold P in *. cbn. same ([EAct w AAssign] : list event) HP.
    + match type of H with match _ with None => Next ?s1 | _ => _ end = _ => assert (HP1 : P s1) end.
      { unfold P in *. cbn. apply (p_same ([EAct w AAssign] : list event) _ _ _ _ _ _ _ _ _ _ _ HP); try done; try lia.
        - intros z Hz. destruct (decide (z = x)) as [->|]; [rewrite lookup_insert; eauto|by rewrite lookup_insert_ne].
        - intros z _ Hz. by rewrite lookup_insert_ne by congruence.
        - intros z Hz. destruct (decide (z = x)) as [->|]; [apply (p_bt _ _ _ _ _ _ HP); eauto|].
          rewrite lookup_insert_ne in Hz by done. by apply (p_bt _ _ _ _ _ _ HP).
        - repeat constructor. by intros ?. }
      destruct (ohandle ox); [by eapply p_deref|]. by injection H as <-.
  - eapply p_drop; [reflexivity..| |exact H]. right. split.
    + unfold P in *. cbn. same ([EAct w (ADrop x)] : list event) HP.
    + exists w. left.
  - destruct (objs s !! x) as [ob|]; [|done]. destruct (ohandle ob) as [h|].
    + destruct (heap s !! h) as [fr|]; [|done]. injection H as <-. unfold P in *. cbn. same ([EAct w (AReady (is_final fr))] : list event) HP.
    + injection H as <-. unfold P in *. cbn. same ([EAct w (AReady true)] : list event) HP.
  - (* waitFor *)
    destruct (objs s !! x) as [ob|]; [|done]. eapply p_await; [|exact H]. unfold P in *. cbn.
    set (es := [EStart (nf s); ECreate (nf s) KTask (CWaitStart (nc s) x (ohandle ob)) w; EWaitCall w (nc s) (nf s) (ohandle ob)] : list event).
    destruct HP as [P1 P2 P3 P4 P5 P6 P7].
    assert (Hhp : ∀ g l, hpar (<[nf s:=new_frame KTask Running []]> (heap s)) g = Some l ->
         (g = nf s ∧ l = []) ∨ (g ≠ nf s ∧ hpar (heap s) g = Some l)).
    { intros g l. unfold hpar. destruct (decide (g = nf s)) as [->|].
      - rewrite lookup_insert. cbn. intros [= <-]. by left.
      - rewrite lookup_insert_ne by done. by right. }
    assert (Htr : ∀ w' a, EAct w' a ∈ es ++ trace s -> EAct w' a ∈ trace s).
    { intros w' a Hin. unfold es in Hin. cbn in Hin. apply elem_of_cons in Hin as [?|Hin]; [done|]. apply elem_of_cons in Hin as [?|Hin]; [done|].
      by apply elem_of_cons in Hin as [?|Hin]. }
    change (PC (<[nf s:=new_frame KTask Running []]> (heap s)) (<[nt s:=Obj KTask (Some (nf s))]> (objs s))
      (Drops [nt s] :: WaitLoop w void x (nc s) false c :: stack s) (es ++ trace s) (S (nf s)) (S (nt s))).
    split.
    + intros g l p [[-> ->]|[Hg Hgl]]%Hhp Hp; [by apply elem_of_nil in Hp|]. destruct (P1 _ _ _ Hgl Hp). split; [lia|].
      rewrite !pdrops_cons. cbn. intros [?|?]%elem_of_cons; [lia|done].
    + intros g g' l l' p [[-> ->]|[Hg Hgl]]%Hhp [[-> ->]|[Hg' Hgl']]%Hhp Hp Hp'; try by apply elem_of_nil in Hp.
      * by apply elem_of_nil in Hp'.
      * eauto.
    + intros g l p [[-> ->]|[Hg Hgl]]%Hhp Hp; [by apply elem_of_nil in Hp|].
      destruct (P3 _ _ _ Hgl Hp) as [Ho|[w' ?]].
      * left. pose proof (P7 _ Ho). by rewrite lookup_insert_ne by lia.
      * right. exists w'. apply elem_of_app. by right.
    + intros w' t' g ps0 Hin%Htr. destruct (P4 _ _ _ _ Hin) as [Hg Hx]. split; [lia|]. unfold hpar in *.
      rewrite lookup_insert_ne by lia. destruct (fparams <$> heap s !! g); [done|].
      intros p Hp. destruct (Hx p Hp) as [? [?|?]]; (split; [lia|]).
      * left. by rewrite lookup_insert_ne by lia.
      * right. rewrite !pdrops_cons. by right.
    + intros p. rewrite !pdrops_cons. cbn. intros [->|Hp%P5]%elem_of_cons; lia.
    + intros g Hg. rewrite lookup_insert_ne by lia. apply P6. lia.
    + intros y Hy. destruct (decide (y = nt s)) as [->|]; [lia|]. rewrite lookup_insert_ne in Hy by done.
      specialize (P7 y Hy). lia.
  - injection H as <-. unfold P in *. cbn. same ([EAct w (AAlive q (bool_decide (q ∈ alive s)))] : list event) HP.
  - injection H as <-. unfold P in *. cbn. same ([EKill q; EAct w AKill] : list event) HP.
Qed.

Lemma p_step (s s' : state) : P s -> step s = Next s' -> P s'.
Proof.
  unfold TaskModel.step. intros HP H. destruct (stack s) as [|it st] eqn:Hst; [done|].
  destruct it as [w c|h l|l|x y|w vd x i ent c].
  - assert (HP0 : P (set_stack st s)).
    { unfold P in *. cbn in *. rewrite Hst in HP. same ([] : list event) HP. }
    destruct c as [p|i x h|i o]; cbn in H.
    + apply (p_user w p st (set_stack st s) s'); [|done|exact H]. unfold P in *. cbn in *. same ([] : list event) HP0.
    + destruct w; [by eapply p_await|done].
    + destruct w; [|done]. destruct (ctxs s !! i); [|done]. eapply p_finish; [|exact H]. exact HP0.
  - assert (HP0 : P (set_stack st s)).
    { unfold P in *. cbn in *. rewrite Hst in HP. same ([] : list event) HP. }
    destruct l as [|a l]; [by eapply p_deref|].
    destruct (heap s !! a) as [fr|]; [|done]. destruct (fstatus fr) as [| |h' k| | |]; try done.
    destruct (heap s !! h'); [|done].
    match type of H with context [take_result mv h' ?s0] => assert (HP1 : P s0) end.
    { unfold P in *. cbn in *. same ([] : list event) HP0. }
    destruct (take_result mv h' _) as [[o|] s1] eqn:E; [|done]. injection H as <-.
    pose proof (p_take _ _ _ _ HP1 E) as HP'. unfold P in *. cbn. same ([EWake a h' o] : list event) HP'.
  - destruct l as [|x l].
    + injection H as <-. unfold P in *. cbn in *. rewrite Hst in HP. same ([] : list event) HP.
    + eapply p_drop; [reflexivity..| |exact H]. left. exists (Drops (x :: l) :: st). cbn. split; [|done].
      unfold P in *. cbn. by rewrite Hst in HP.
  - destruct (objs s !! x) as [ox|] eqn:Hx; [|done]. destruct (objs s !! y) as [oy|] eqn:Hy; [|done].
    injection H as <-. unfold P in *. cbn. rewrite Hst in HP.
    apply (p_same ([] : list event) _ _ _ _ _ _ _ _ _ _ _ HP); try done; try lia.
    + intros z Hz. destruct (decide (z = x)) as [->|]; [rewrite lookup_insert; eauto|rewrite lookup_insert_ne by done].
      destruct (decide (z = y)) as [->|]; [rewrite lookup_insert; eauto|by rewrite lookup_insert_ne].
    + intros z _ Hz. rewrite !lookup_insert_ne by congruence. done.
    + intros z Hz. apply (p_bt _ _ _ _ _ _ HP).
      destruct (decide (z = x)) as [->|]; [eauto|]. rewrite lookup_insert_ne in Hz by done.
      destruct (decide (z = y)) as [->|]; [eauto|]. by rewrite lookup_insert_ne in Hz.
  - destruct (ctxs s !! i) as [[o|]|]; [|destruct ent; [done|]|done]; injection H as <-; unfold P in *; cbn; rewrite Hst in HP.
    + same ([EWaitRet w i o] : list event) HP.
    + same ([ELoop i] : list event) HP.
Qed.

Lemma p_env e (s s' : state) : P s -> env_step e s = Next s' -> P s'.
Proof.
  unfold TaskModel.env_step. intros HP H. destruct (is_idle mv dflt s); [|done]. destruct e as [p|f o|q|].
  - injection H as <-. unfold P in *. cbn. same ([] : list event) HP.
  - destruct (heap s !! f) as [fr|]; [|by injection H as <-]. destruct (fstatus fr); try (by injection H as <-).
    injection H as <-. unfold P in *. cbn. same ([ELeafWake f o] : list event) HP.
  - injection H as <-. unfold P in *. cbn. same ([EKill q] : list event) HP.
  - destruct (stack s) as [|it st] eqn:Hst; [by injection H as <-|]. destruct it as [| | | |w vd x i ent c]; try (by injection H as <-).
    destruct vd; [|done]. injection H as <-. unfold P in *. cbn. rewrite Hst in HP. same ([EWaitRet w i (Val dflt)] : list event) HP.
Qed.

Lemma p_init qs : P (init qs).
Proof.
  split; cbn; try done; unfold hpar; intros; rewrite ?lookup_empty in *; try done.
  - by match goal with H : _ ∈ [] |- _ => apply elem_of_nil in H end.
  - by match goal with H : _ ∈ _ |- _ => apply elem_of_nil in H end.
  - by destruct H.
Qed.

Theorem p_reach q s : reach mv dflt q s -> P s.
Proof.
  intros [qs H]. remember (init qs) as s0 eqn:E0. induction H; subst; [apply p_init|..].
  - eapply p_step; eauto.
  - eapply p_env; eauto.
Qed.
End params.
