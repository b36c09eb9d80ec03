(** * waitFor(): contexts, and where the returned outcome comes from. *)
From stdpp Require Import gmap list.
From Verif Require Import TaskModel TaskInv TaskSafe TaskView TaskSpec TaskTrace TaskWalk TaskLegal.

Section ctx.
Context {V : Type} (mv : V -> V) (dflt : V).
Notation state := (state V). Notation item := (item V). Notation frame := (frame V).
Notation event := (event V). Notation code := (code V).
Notation astep := (astep mv dflt).
Notation R := (R mv). Notation RC := (RC mv).

Definition item_loop (i : item) : list (actor * nat) := match i with WaitLoop w _ _ i _ _ => [(w, i)] | _ => [] end.
Definition loops (st : list item) : list (actor * nat) := flat_map item_loop st.
Arguments loops st : simpl never.
Lemma loops_cons i st : loops (i :: st) = item_loop i ++ loops st.
Proof. done. Qed.

Definition set_ok (tr : list event) (f i : nat) (o : outcome V) : Prop :=
  ∃ w h, EWaitCall w i f (Some h) ∈ tr ∧ delivered f h o tr.
Definition done_ok (tr : list event) (i : nat) (o : outcome V) : Prop :=
  ∃ w f h, EWaitCall w i f (Some h) ∈ tr ∧ delivered f h o tr ∧ ∃ o', EFinish f o' ∈ tr.

Record KC (q : bool) (hp : gmap nat frame) (st : list item) (cx : gmap nat (option (outcome V)))
    (tr : list event) (n m : nat) : Prop := {
  k_bound : ∀ w i f h, EWaitCall w i f h ∈ tr -> i < m;
  k_uniq : ∀ w i f h w' f' h', EWaitCall w i f h ∈ tr -> EWaitCall w' i f' h' ∈ tr -> w = w' ∧ f = f' ∧ h = h';
  k_set : ∀ f i o, (Co f, CWaitSet i o) ∈ curs st -> set_ok tr f i o;
  k_start : ∀ f i x h, (Co f, CWaitStart i x h) ∈ curs st -> ∃ w, EWaitCall w i f h ∈ tr;
  k_kont : ∀ f fr h i, hp !! f = Some fr -> fstatus fr = AwaitTask h (KWait i) -> ∃ w, EWaitCall w i f (Some h) ∈ tr;
  k_loop : ∀ w i, (w, i) ∈ loops st -> is_Some (cx !! i) ∧ ∃ f h, EWaitCall w i f h ∈ tr;
  k_nd : NoDup ((loops st).*2);
  k_cxb : ∀ i, is_Some (cx !! i) -> i < m;
  k_ctx : ∀ i o, cx !! i = Some (Some o) -> done_ok tr i o;
  k_own : q = false -> ∀ w i f h, EWaitCall w i f h ∈ tr -> (∃ o, EFinish f o ∈ tr) ∨ is_Some (cx !! i);
  k_ret : q = false -> ∀ w i o, EWaitRet w i o ∈ tr ->
    ∃ f h, EWaitCall w i f (Some h) ∈ tr ∧ delivered f h o tr;
}.
Definition K q (s : state) : Prop := KC q (heap s) (stack s) (ctxs s) (trace s) (nf s) (nc s).

Lemma delivered_mono f h o (tr : list event) es : delivered f h o tr -> delivered f h o (es ++ tr).
Proof. intros [H|H]; [left|right]; apply elem_of_app; by right. Qed.

Lemma set_ok_mono tr es f i o : set_ok tr f i o -> set_ok (es ++ tr) f i o.
Proof.
  intros (w & h & H1 & H2). exists w, h. split; [apply elem_of_app; by right|by apply delivered_mono].
Qed.
Lemma done_ok_mono tr es i o : done_ok tr i o -> done_ok (es ++ tr) i o.
Proof.
  intros (w & f & h & H1 & H2 & o' & H3). exists w, f, h. split_and!.
  - apply elem_of_app; by right.
  - by apply delivered_mono.
  - exists o'. apply elem_of_app; by right.
Qed.

Definition calm (e : event) : Prop := match e with EWaitCall _ _ _ _ | EWaitRet _ _ _ => False | _ => True end.

(** Steps that neither create nor resolve a context. *)
Lemma k_calm q hp hp' st st' cx tr es n n' m :
  KC q hp st cx tr n m -> Forall calm es ->
  (∀ f i o, (Co f, CWaitSet i o) ∈ curs st' -> (Co f, CWaitSet i o) ∈ curs st ∨ set_ok (es ++ tr) f i o) ->
  (∀ f i x h, (Co f, CWaitStart i x h) ∈ curs st' -> (Co f, CWaitStart i x h) ∈ curs st) ->
  (∀ f fr h i, hp' !! f = Some fr -> fstatus fr = AwaitTask h (KWait i) ->
    (∃ fr', hp !! f = Some fr' ∧ fstatus fr' = AwaitTask h (KWait i)) ∨ ∃ w, EWaitCall w i f (Some h) ∈ tr) ->
  loops st' = loops st ->
  KC q hp' st' cx (es ++ tr) n' m.
Proof.
  intros [K1 K2 K3 K4 K5 K6 K7 K8 K9 K10 K11] Hc H1 H2 H3 H4.
  assert (Hcall : ∀ w i f h, EWaitCall w i f h ∈ es ++ tr -> EWaitCall w i f h ∈ tr).
  { intros w i f h [H|H]%elem_of_app; [|done]. rewrite Forall_forall in Hc. by specialize (Hc _ H). }
  assert (Hcall' : ∀ w i f h, EWaitCall w i f h ∈ tr -> EWaitCall w i f h ∈ es ++ tr).
  { intros w i f h H. apply elem_of_app. by right. }
  assert (Hret : ∀ w i f, EWaitRet w i f ∈ es ++ tr -> EWaitRet w i f ∈ tr).
  { intros w i f [H|H]%elem_of_app; [|done]. rewrite Forall_forall in Hc. by specialize (Hc _ H). }
  split; rewrite ?H4; try done.
  - eauto.
  - eauto 10.
  - intros f i o [H|H]%H1; [|done]. by apply set_ok_mono, K3.
  - intros f i x h H%H2. destruct (K4 _ _ _ _ H) as [w ?]. eauto.
  - intros f fr h i Hf Hs. destruct (H3 _ _ _ _ Hf Hs) as [(fr' & Hf' & Hs')|[w ?]]; [|eauto].
    destruct (K5 _ _ _ _ Hf' Hs') as [w ?]. eauto.
  - intros w i Hin. destruct (K6 w i Hin) as [? (f & h & ?)]. split; [done|]. eauto.
  - intros i o Hi. by apply done_ok_mono, K9.
  - intros Hq w i f h H%Hcall. destruct (K10 Hq _ _ _ _ H) as [[o ?]|?]; [|by right]. left. exists o.
    apply elem_of_app. by right.
  - intros Hq w i o H%Hret. destruct (K11 Hq _ _ _ H) as (f & h & ? & ?). exists f, h. split; [auto|].
    by apply delivered_mono.
Qed.

Ltac pl := repeat (constructor; [done|]); constructor.

Lemma alter_status_back (g : frame -> frame) f (hp : gmap nat frame) x fr st0 :
  alter g f hp !! x = Some fr -> (∀ fr, fstatus (g fr) = fstatus fr) -> fstatus fr = st0 ->
  ∃ fr', hp !! x = Some fr' ∧ fstatus fr' = st0.
Proof.
  intros H Hg Hs. destruct (decide (x = f)) as [->|].
  - rewrite lookup_alter in H. destruct (hp !! f) as [y|] eqn:E; [|done]. cbn in H. injection H as <-.
    rewrite Hg in Hs. eauto.
  - rewrite lookup_alter_ne in H by done. eauto.
Qed.

Lemma alter_status_back2 (g : frame -> frame) f (hp : gmap nat frame) x fr h k :
  alter g f hp !! x = Some fr -> (∀ fr, fstatus (g fr) ≠ AwaitTask h k) -> fstatus fr = AwaitTask h k ->
  ∃ fr', hp !! x = Some fr' ∧ fstatus fr' = AwaitTask h k.
Proof.
  intros H Hg Hs. destruct (decide (x = f)) as [->|].
  - rewrite lookup_alter in H. destruct (hp !! f) as [y|] eqn:E; [|done]. cbn in H. injection H as <-.
    by apply Hg in Hs.
  - rewrite lookup_alter_ne in H by done. eauto.
Qed.

(** Resolve a context: [EWaitRet]. *)
Lemma k_resolve q hp st cx tr n m w vd x i en c o e :
  KC q hp (WaitLoop w vd x i en c :: st) cx tr n m ->
  (e = EWaitRet w i o) -> (cx !! i = Some (Some o) ∨ q = true) ->
  KC q hp (Run w (CUser (c o)) :: st) (delete i cx) (e :: tr) n m.
Proof.
  intros [K1 K2 K3 K4 K5 K6 K7 K8 K9 K10 K11] -> Hi.
  assert (Hcall : ∀ w' j f h, EWaitCall w' j f h ∈ EWaitRet w i o :: tr -> EWaitCall w' j f h ∈ tr).
  { intros w' j f h [H|H]%elem_of_cons; done. }
  assert (Hcall' : ∀ w' j f h, EWaitCall w' j f h ∈ tr -> EWaitCall w' j f h ∈ EWaitRet w i o :: tr).
  { intros w' j f h H. by right. }
  rewrite loops_cons in K6, K7. cbn in K6, K7. apply NoDup_cons in K7 as [K7a K7].
  rewrite curs_cons in K3, K4. cbn in K3, K4.
  split; rewrite ?curs_cons, ?loops_cons; cbn [item_cur item_loop app].
  - eauto.
  - eauto 10.
  - intros f j o' [?|H]%elem_of_cons; [done|]. apply (set_ok_mono tr [_]), K3. by right.
  - intros f j y h [?|H]%elem_of_cons; [done|]. destruct (K4 f j y h) as [w' ?]; [by right|]. eauto.
  - intros f fr h j Hf Hs. destruct (K5 _ _ _ _ Hf Hs) as [w' ?]. eauto.
  - intros w' j Hin. destruct (K6 w' j) as [Hs (f & h & ?)]; [by right|].
    split; [|eauto]. rewrite lookup_delete_ne; [done|]. intros ->. apply K7a. apply elem_of_list_fmap. by exists (w', j).
  - done.
  - intros j [y Hj]. apply lookup_delete_Some in Hj as [_ Hj]. eauto.
  - intros j o' Hj. apply lookup_delete_Some in Hj as [_ Hj]. by apply (done_ok_mono tr [_]), K9.
  - intros Hq w' j f h H%Hcall. destruct (decide (j = i)) as [->|Hne].
    + destruct Hi as [Hi|Hi]; [|congruence]. left. destruct (K9 _ _ Hi) as (w2 & f2 & h2 & E1 & E2 & o' & E3).
      destruct (K2 _ _ _ _ _ _ _ H E1) as (-> & -> & ->). exists o'. by right.
    + destruct (K10 Hq _ _ _ _ H) as [[o' ?]|?].
      * left. exists o'. by right.
      * right. by rewrite lookup_delete_ne.
  - intros Hq w' j o' [[= -> -> ->]|H]%elem_of_cons.
    + destruct Hi as [Hi|Hi]; [|congruence]. destruct (K9 _ _ Hi) as (w2 & f2 & h2 & E1 & E2 & _).
      destruct (K6 w i) as [_ (f3 & h3 & E3)]; [left|]. destruct (K2 _ _ _ _ _ _ _ E1 E3) as (-> & <- & <-).
      exists f2, h2. split; [auto|]. by apply (delivered_mono _ _ _ tr [_]).
    + destruct (K11 Hq _ _ _ H) as (f & h & ? & ?). exists f, h. split; [auto|]. by apply (delivered_mono _ _ _ tr [_]).
Qed.

Ltac curs_tail := let H := fresh in
  rewrite ?curs_cons; cbn [item_cur app]; intros H;
  repeat first [apply elem_of_cons in H as [?|H]; [simplify_eq|]| by apply elem_of_nil in H];
  try (left; by right); try (by right); try (left; done); try done.

Theorem k_step q s s' : R s -> K q s -> astep q s s' -> K q s'.
Proof.
  intros HR HK Hs. unfold K, TaskTrace.R in *.
  destruct Hs; cbn [heap stack trace nf nc ctxs alive push emit set_stack set_heap set_alive set_ctxs upd] in *;
    try match goal with H : stack s = _ |- _ => rewrite H in * end.
  - eapply (k_calm _ _ _ _ _ _ _ [e]); [exact HK|by destruct H0; pl| | |eauto|done].
    + intros f i o. rewrite !curs_cons. cbn. intros [?|?]%elem_of_cons; [done|]. left. by right.
    + intros f i o h. rewrite !curs_cons. cbn. intros [?|?]%elem_of_cons; [done|]. by right.
  - eapply (k_calm _ _ _ _ _ _ _ [_]); [exact HK|pl| | |eauto|done].
    + intros f i o. rewrite !curs_cons. cbn. intros [?|?]%elem_of_cons; [done|]. left. by right.
    + intros f i o h. rewrite !curs_cons. cbn. intros [?|?]%elem_of_cons; [done|]. by right.
  - eapply (k_calm _ _ _ _ _ _ _ [_; _]); [exact HK|pl| | |eauto|done].
    + intros f i o. rewrite !curs_cons. cbn. intros [?|?]%elem_of_cons; [done|]. left. by right.
    + intros f i o h. rewrite !curs_cons. cbn. intros [?|?]%elem_of_cons; [done|]. by right.
  - eapply (k_calm _ _ _ _ _ _ _ [_; _; _]); [exact HK|pl| | | |done].
    + intros f i o. rewrite !curs_cons. cbn. intros [?|[?|?]%elem_of_cons]%elem_of_cons; [done|done|]. left. by right.
    + intros f i o h. rewrite !curs_cons. cbn. intros [?|[?|?]%elem_of_cons]%elem_of_cons; [done|done|]. by right.
    + intros f fr h i Hf Hst. left. destruct (decide (f = nf s)) as [->|].
      * rewrite lookup_insert in Hf. injection Hf as <-. done.
      * rewrite lookup_insert_ne in Hf by done. eauto.
  - eapply (k_calm _ _ _ _ _ _ _ [_; _]); [exact HK|pl| | | |done].
    + intros f i o. rewrite !curs_cons. cbn. intros [?|?]%elem_of_cons; [done|]. left. by right.
    + intros f i o h. rewrite !curs_cons. cbn. intros [?|?]%elem_of_cons; [done|]. by right.
    + intros f fr h i Hf Hst. left. destruct (decide (f = nf s)) as [->|].
      * rewrite lookup_insert in Hf. injection Hf as <-. done.
      * rewrite lookup_insert_ne in Hf by done. eauto.
  - destruct HK as [K1 K2 K3 K4 K5 K6 K7 K8 K9 K10 K11].
    set (es := [EStart (nf s); ECreate (nf s) KTask (CWaitStart (nc s) x hd) w; EWaitCall w (nc s) (nf s) hd] : list event).
    match goal with |- KC _ _ _ _ ?t _ _ => change t with (es ++ trace s) end.
    assert (Hcall : ∀ w' j f h, EWaitCall w' j f h ∈ es ++ trace s ->
      (w' = w ∧ j = nc s ∧ f = nf s ∧ h = hd) ∨ EWaitCall w' j f h ∈ trace s).
    { intros w' j f h Hin. unfold es in Hin. cbn in Hin. apply elem_of_cons in Hin as [?|Hin]; [done|].
      apply elem_of_cons in Hin as [?|Hin]; [done|]. apply elem_of_cons in Hin as [[= -> -> -> ->]|Hin]; auto. }
    assert (Hcall' : ∀ w' j f h, EWaitCall w' j f h ∈ trace s -> EWaitCall w' j f h ∈ es ++ trace s).
    { intros w' j f h Hin. apply elem_of_app. by right. }
    assert (Hnew : EWaitCall w (nc s) (nf s) hd ∈ es ++ trace s).
    { unfold es. cbn. right. right. left. }
    rewrite curs_cons in K3, K4. cbn in K3, K4.
    rewrite loops_cons in K6, K7. cbn in K6, K7.
    split; rewrite ?curs_cons, ?loops_cons; cbn [item_cur item_loop app].
    + intros w' j f h [(_ & -> & _)|Hin]%Hcall; [lia|]. specialize (K1 _ _ _ _ Hin). lia.
    + intros w1 j f1 h1 w2 f2 h2 [(-> & -> & -> & ->)|H2]%Hcall [(-> & E & -> & ->)|H3]%Hcall; try done.
      * specialize (K1 _ _ _ _ H3). lia.
      * specialize (K1 _ _ _ _ H2). lia.
      * eauto.
    + intros f j o [?|[?|Hin]%elem_of_cons]%elem_of_cons; [done|done|]. apply set_ok_mono, K3. by right.
    + intros f j y h [[= -> -> -> ->]|[?|Hin]%elem_of_cons]%elem_of_cons; [eauto|done|].
      destruct (K4 f j y h) as [w' ?]; [by right|]. eauto.
    + intros f fr h j Hf Hst. destruct (decide (f = nf s)) as [->|].
      * rewrite lookup_insert in Hf. injection Hf as <-. done.
      * rewrite lookup_insert_ne in Hf by done. destruct (K5 _ _ _ _ Hf Hst) as [w' ?]. eauto.
    + intros w' j [[= -> ->]|Hin]%elem_of_cons.
      * rewrite lookup_insert. split; [eauto|]. eauto.
      * destruct (K6 w' j Hin) as [Hsome (f & h & Hc)]. split; [|eauto].
        rewrite lookup_insert_ne; [done|]. specialize (K1 _ _ _ _ Hc). lia.
    + cbn. apply NoDup_cons. split; [|done]. intros Hin. apply elem_of_list_fmap in Hin as ([w' j] & E & Hin).
      cbn in E. subst j. destruct (K6 w' _ Hin) as [_ (f & h & Hc)]. specialize (K1 _ _ _ _ Hc). lia.
    + intros j Hj. destruct (decide (j = nc s)) as [->|]; [lia|]. rewrite lookup_insert_ne in Hj by done.
      specialize (K8 _ Hj). lia.
    + intros j o Hj. destruct (decide (j = nc s)) as [->|]; [by rewrite lookup_insert in Hj|].
      rewrite lookup_insert_ne in Hj by done. by apply done_ok_mono, K9.
    + intros Hq w' j f h [(-> & -> & -> & ->)|Hin]%Hcall.
      * right. rewrite lookup_insert. eauto.
      * destruct (K10 Hq _ _ _ _ Hin) as [[o ?]|?].
        -- left. exists o. apply elem_of_app. by right.
        -- right. rewrite lookup_insert_ne; [done|]. specialize (K1 _ _ _ _ Hin). lia.
    + intros Hq w' j o Hin. unfold es in Hin. cbn in Hin. do 3 (apply elem_of_cons in Hin as [?|Hin]; [done|]).
      destruct (K11 Hq _ _ _ Hin) as (f & h & ? & ?). exists f, h. split; [auto|]. by apply delivered_mono.
  - eapply (k_calm _ _ _ _ _ _ _ []); [exact HK|constructor| | |eauto|done].
    + intros f i o Hin. left. rewrite curs_cons. by right.
    + intros f i o h Hin. rewrite curs_cons. by right.
  - eapply (k_calm _ _ _ _ _ _ _ [_]); [exact HK|pl| | | |done].
    + intros f0 i o0 Hin. left. rewrite curs_cons in *. by right.
    + intros f0 i o0 h Hin. rewrite curs_cons in *. by right.
    + intros f0 fr0 h i Hf Hst. left. by eapply alter_status_back2.
  - assert (Hset : set_ok (trace s) f i o). { apply (k_set _ _ _ _ _ _ _ HK). rewrite curs_cons. left. }
    assert (KC q (alter (λ fr0 : frame, fr_result (Some (Val dflt)) (fr_status Final fr0)) f (heap s))
      (FinalSusp f (fawaiters fr) :: st) (ctxs s) ([EFinish f (Val dflt)] ++ trace s) (nf s) (nc s)) as HK1.
    { eapply (k_calm _ _ _ _ _ _ _ [_]); [exact HK|pl| | | |done].
      + intros f0 i0 o0 Hin. left. rewrite curs_cons in *. by right.
      + intros f0 i0 o0 h Hin. rewrite curs_cons in *. by right.
      + intros f0 fr0 h i0 Hf Hst. left. by eapply alter_status_back2. }
    cbn in HK1. destruct HK1 as [K1 K2 K3 K4 K5 K6 K7 K8 K9 K10 K11]. split; try done.
    + intros w j Hin. destruct (K6 w j Hin) as [Hs ?]. split; [|done].
      destruct (decide (j = i)) as [->|]; [rewrite lookup_insert; eauto|by rewrite lookup_insert_ne].
    + intros j Hj. destruct (decide (j = i)) as [->|].
      * eauto.
      * rewrite lookup_insert_ne in Hj by done. eauto.
    + intros j o' Hj. destruct (decide (j = i)) as [->|].
      * rewrite lookup_insert in Hj. injection Hj as <-. destruct Hset as (w & h & E1 & E2).
        exists w, f, h. split_and!; [by right|by apply (delivered_mono _ _ _ _ [_])|]. exists (Val dflt). left.
      * rewrite lookup_insert_ne in Hj by done. eauto.
    + intros Hq w j f0 h Hin. destruct (K10 Hq _ _ _ _ Hin) as [?|?]; [by left|]. right.
      destruct (decide (j = i)) as [->|]; [rewrite lookup_insert; eauto|by rewrite lookup_insert_ne].
  - eapply (k_calm _ _ _ _ _ _ _ [_]); [exact HK|pl| | | |done].
    + intros f0 i o0 Hin. left. rewrite curs_cons in *. by right.
    + intros f0 i o0 h Hin. rewrite curs_cons in *. by right.
    + intros f0 fr0 h i Hf Hst. left. by eapply alter_status_back2.
  - eapply (k_calm _ _ _ _ _ _ _ [_]); [exact HK|pl| | | |done].
    + intros f0 i o0. rewrite !curs_cons. cbn. intros [Heq|Hin]%elem_of_cons; [|left; by right]. right.
      injection Heq as -> Heq. remember (Some h) as hd eqn:Ehd.
      destruct H0 as [x c hd|i' x hd]; cbn in Heq; [done|]. injection Heq as -> ->. subst hd.
      destruct (k_start _ _ _ _ _ _ _ HK f i' x (Some h)) as [w Hc]; [rewrite curs_cons; left|].
      exists w, h. split; [by right|]. right. left.
    + intros f0 i o0 h0. rewrite !curs_cons. cbn. intros [Heq|Hin]%elem_of_cons; [|by right].
      injection Heq as -> Heq. by destruct H0.
    + intros f0 fr0 h0 i Hf Hst. left. by eapply alter_status_back.
  - eapply (k_calm _ _ _ _ _ _ _ [_]); [exact HK|pl| | | |done].
    + intros f0 i o0 Hin. left. rewrite curs_cons in *. by right.
    + intros f0 i o0 h0 Hin. rewrite curs_cons in *. by right.
    + intros f0 fr0 h0 i Hf Hst. destruct (decide (f0 = f)) as [->|Hne].
      * right. rewrite lookup_alter in Hf. destruct (alter _ h (heap s) !! f); [|done]. cbn in Hf. injection Hf as <-.
        cbn in Hst. injection Hst as -> ->. inversion H0; subst.
        destruct (k_start _ _ _ _ _ _ _ HK f i x (Some h0)) as [w Hc]; [rewrite curs_cons; left|]. eauto.
      * left. rewrite lookup_alter_ne in Hf by done. by eapply alter_status_back.
  - eapply (k_calm _ _ _ _ _ _ _ [_; _]); [exact HK|pl| | | |done].
    + intros f0 i o0 Hin. left. rewrite curs_cons in *. cbn in Hin. apply elem_of_cons in Hin as [?|Hin]; [done|]. by right.
    + intros f0 i o0 h0 Hin. rewrite curs_cons in *. cbn in Hin. apply elem_of_cons in Hin as [?|Hin]; [done|]. by right.
    + intros f0 fr0 h0 i Hf Hst. eapply alter_status_back2 in Hf as (fr1 & Hf & Hst1); [|done|exact Hst].
      destruct (decide (f0 = f)) as [->|Hne].
      * right. rewrite lookup_alter in Hf. destruct (alter _ h (heap s) !! f); [|done]. cbn in Hf. injection Hf as <-.
        cbn in Hst1. injection Hst1 as -> ->. inversion H0; subst.
        destruct (k_start _ _ _ _ _ _ _ HK f i x (Some h0)) as [w Hc]; [rewrite curs_cons; left|]. eauto.
      * left. rewrite lookup_alter_ne in Hf by done. by eapply alter_status_back.
  - eapply (k_calm _ _ _ _ _ _ _ [_]); [exact HK|pl| | | |done].
    + intros f0 i o0 Hin. left. rewrite curs_cons in *. by right.
    + intros f0 i o0 h Hin. rewrite curs_cons in *. by right.
    + intros f0 fr0 h i Hf Hst. left. by eapply alter_status_back2.
  - eapply (k_calm _ _ _ _ _ _ _ [_]); [exact HK|pl| | | |done].
    + intros f0 i o0. rewrite !curs_cons. cbn. intros [Heq|Hin]%elem_of_cons; [|by left]. right.
      injection Heq as -> Heq. destruct k as [c|i']; cbn in Heq; [done|]. injection Heq as -> ->.
      destruct (k_kont _ _ _ _ _ _ _ HK a fa h i' H1 H2) as [w Hc].
      exists w, h. split; [by right|]. left. left.
    + intros f0 i o0 h0. rewrite !curs_cons. cbn. intros [Heq|Hin]%elem_of_cons; [|done].
      injection Heq as -> Heq. by destruct k.
    + intros f0 fr0 h0 i Hf Hst. left.
      eapply alter_status_back in Hf as (fr1 & Hf & Hst1); [|done|exact Hst]. by eapply alter_status_back2.
  - eapply (k_calm _ _ _ _ _ _ _ []); [exact HK|constructor| | |eauto|done]; eauto.
  - eapply (k_calm _ _ _ _ _ _ _ [_]); [exact HK|pl|eauto|eauto| |done].
    intros f0 fr0 h0 i Hf Hst. apply lookup_delete_Some in Hf as [_ Hf]. eauto.
  - eapply (k_calm _ _ _ _ _ _ _ [_]); [exact HK|pl| | |eauto|done]; eauto.
  - eapply k_resolve; [exact HK|done|by left].
  - eapply (k_calm _ _ _ _ _ _ _ []); [exact HK|constructor| | |eauto|done].
    + intros f i o. rewrite !curs_cons. cbn. intros [?|?]%elem_of_cons; [done|]. by left.
    + intros f i o h. rewrite !curs_cons. cbn. intros [?|?]%elem_of_cons; done.
  - eapply (k_calm _ _ _ _ _ _ _ [_]); [exact HK|pl| | | |done].
    + intros f0 i o0. rewrite !curs_cons. cbn. intros [?|?]%elem_of_cons; [done|]. by left.
    + intros f0 i o0 h. rewrite !curs_cons. cbn. intros [?|?]%elem_of_cons; done.
    + intros f0 fr0 h i Hf Hst. left. by eapply alter_status_back2.
  - eapply (k_calm _ _ _ _ _ _ _ [_]); [exact HK|pl| | |eauto|done]; eauto.
  - eapply k_resolve; [exact HK|done|by right].
Qed.

Lemma k_init q qs : K q (init qs).
Proof.
  assert (He : ∀ (A : Type) (x : nat), ¬ is_Some ((∅ : gmap nat A) !! x)).
  { intros A x. rewrite lookup_empty. by intros [? ?]. }
  split; cbn; try done; try (intros; exfalso; eapply not_elem_of_nil; eassumption).
  - by apply NoDup_nil.
  - intros i Hi. by destruct (He _ _ Hi).
Qed.

Theorem rk_reach q s : reach mv dflt q s -> R (view s) ∧ K q (view s).
Proof.
  apply (view_invariant mv dflt q (λ s, R s ∧ K q s)).
  - intros qs. split; [apply r_init|apply k_init].
  - intros s1 s2 [H1 H2] Hs. split; [by eapply r_step|by eapply k_step].
Qed.

(** Without external quit: no dangling WaitContext and no empty optional. *)
Lemma kept_top i (st st' : list item) : st = i :: st' -> keep i = true -> kept st = i :: kept st'.
Proof. intros -> H. by apply kept_cons_keep. Qed.

Lemma await_ub f x k (s : state) r : do_await mv f x k s = UB r -> r ≠ UDanglingCtx ∧ r ≠ UEmptyOptional.
Proof.
  unfold do_await. intros H. repeat (case_match; simplify_eq; try done).
Qed.
Lemma deref_ub h (s : state) r : deref h s = UB r -> r ≠ UDanglingCtx ∧ r ≠ UEmptyOptional.
Proof. unfold deref. intros H. repeat (case_match; simplify_eq; try done). Qed.
Lemma drop_ub h (s : state) r : drop_obj h s = UB r -> r ≠ UDanglingCtx ∧ r ≠ UEmptyOptional.
Proof. unfold drop_obj. intros H. repeat (case_match; simplify_eq; try done); by eapply deref_ub. Qed.
Lemma finish_ub h o (s : state) r : finish h o s = UB r -> r ≠ UDanglingCtx ∧ r ≠ UEmptyOptional.
Proof. unfold finish. intros H. repeat (case_match; simplify_eq; try done). Qed.
Lemma user_step_ub w p (s : state) r : step_user mv w p s = UB r -> r ≠ UDanglingCtx ∧ r ≠ UEmptyOptional.
Proof.
  destruct p; cbn; intros H; repeat (case_match; simplify_eq; try done).
  all: try first [exact (finish_ub _ _ _ _ H)|exact (await_ub _ _ _ _ _ H)|exact (deref_ub _ _ _ H)|exact (drop_ub _ _ _ H)].
  all: by simplify_eq.
Qed.

Theorem no_quit_ub s r : reach mv dflt false s -> ub_next mv dflt false s r -> r ≠ UDanglingCtx ∧ r ≠ UEmptyOptional.
Proof.
  intros Hr Hu. destruct (rk_reach _ _ Hr) as [HR HK]. unfold TaskTrace.R, K in *.
  destruct Hu as [Hu|(e & He & Hu)].
  - unfold step in Hu. destruct (stack s) as [|i st] eqn:Hst; [done|].
    destruct i as [w c|h l|l|x y|w vd x i en c].
    + destruct c as [p|i x h|i o].
      * by eapply user_step_ub.
      * cbn in Hu. destruct w; [by eapply await_ub|by simplify_eq].
      * cbn in Hu. destruct w as [f|]; [|by simplify_eq].
        destruct (ctxs s !! i) as [x|] eqn:Hi; [by eapply finish_ub|]. exfalso.
        cbn in HR, HK. rewrite (kept_top _ _ _ Hst) in HR, HK by done.
        destruct (k_set _ _ _ _ _ _ _ HK f i o) as (w & h & Hc & _); [rewrite curs_cons; left|].
        destruct (k_own _ _ _ _ _ _ _ HK eq_refl _ _ _ _ Hc) as [[o' Hfin]|[? Hs]]; [|congruence].
        apply rc_pop, rc_co in HR as (fr & _ & _ & Hph & _).
        assert (Hleg : legal_trace mv (trace s)) by by eapply trace_legal.
        destruct (phase_finished mv f o' (trace s) Hleg Hfin) as [E|E]; cbn in Hph; congruence.
    + destruct l as [|a l].
      * by eapply deref_ub.
      * repeat (case_match; simplify_eq; try done).
    + destruct l as [|a l]; [done|]. by eapply drop_ub.
    + repeat (case_match; simplify_eq; try done).
    + destruct (ctxs s !! i) as [[o|]|] eqn:Hi; [done|by destruct en|]. exfalso.
      cbn in HK. rewrite (kept_top _ _ _ Hst) in HK by done.
      destruct (k_loop _ _ _ _ _ _ _ HK w i) as [[? ?] _]; [rewrite loops_cons; left|]. congruence.
  - unfold env_step in Hu. destruct (is_idle mv dflt s); [|done].
    destruct e as [p|f o|qq|]; try done.
    + repeat (case_match; simplify_eq; try done).
    + by specialize (He eq_refl).
Qed.
End ctx.
