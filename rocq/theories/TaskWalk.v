(** * Every coroutine executes exactly its body: the local events of a coroutine are a run of its code. *)
From stdpp Require Import gmap list.
From Verif Require Import TaskModel TaskInv TaskSafe TaskView TaskSpec TaskTrace.

Section walk.
Context {V : Type} (mv : V -> V) (dflt : V).
Notation state := (state V). Notation item := (item V). Notation frame := (frame V).
Notation event := (event V). Notation code := (code V).
Notation astep := (astep mv dflt). Notation cwalk := (cwalk dflt). Notation cadv := (cadv dflt).
Notation R := (R mv). Notation RC := (RC mv).

Definition item_cur (i : item) : list (actor * code) :=
  match i with
  | Run w c => [(w, c)]
  | WaitLoop w vd x _ _ c => [(w, CUser (PWaitFor vd x c))]
  | _ => []
  end.
Definition curs (st : list item) : list (actor * code) := flat_map item_cur st.

Arguments curs st : simpl never.
Lemma proj_cons w (e : event) l : proj w (e :: l) = proj1 w e ++ proj w l.
Proof. done. Qed.

Lemma curs_cons i st : curs (i :: st) = item_cur i ++ curs st.
Proof. done. Qed.

Lemma curs_actors w c st : (w, c) ∈ curs st -> w ∈ actors st.
Proof.
  induction st as [|i st IH]; [by intros ?%elem_of_nil|].
  rewrite curs_cons, actors_cons. intros [H|H]%elem_of_app; apply elem_of_app; [left|right; eauto].
  destruct i; cbn in *; try by apply elem_of_nil in H.
  - apply elem_of_list_singleton in H as [= -> ->]. left.
  - apply elem_of_list_singleton in H as [= -> ->]. left.
Qed.

(** What the frame's suspension state says about the code that remains. *)
Definition WS (c0 : code) (l : list lev) (ost : option (status V)) : Prop :=
  match ost with
  | None => cwalk c0 l None
  | Some (Initial p) => c0 = CUser p ∧ l = []
  | Some Running => True
  | Some (AwaitTask h k) => ∃ c, cwalk c0 l (Some c) ∧ await_of c (Some h) k
  | Some AwaitNull => ∃ c k, cwalk c0 l (Some c) ∧ await_of c None k
  | Some (AwaitLeaf c) => cwalk c0 l (Some (CUser (PLeaf c)))
  | Some Final => cwalk c0 l None
  end.

Definition WF (f : nat) (hp : gmap nat frame) (st : list item) (tr : list event) : Prop :=
  ∀ k c0 w, ECreate f k c0 w ∈ tr ->
    WS c0 (proj (Co f) tr) (fstatus <$> hp !! f) ∧
    ∀ c, (Co f, c) ∈ curs st -> cwalk c0 (proj (Co f) tr) (Some c).

Record WC (hp : gmap nat frame) (st : list item) (tr : list event) (n : nat) : Prop := {
  w_all : ∀ f, WF f hp st tr;
  w_fresh : ∀ f, n <= f -> proj (Co f) tr = [] ∧ ∀ k c w, ECreate f k c w ∉ tr;
}.
Definition W (s : state) : Prop := WC (heap s) (stack s) (trace s) (nf s).

Definition is_create (g : nat) (e : event) : Prop := match e with ECreate f _ _ _ => f = g | _ => False end.

Lemma proj_app w (l1 l2 : list event) : proj w (l1 ++ l2) = proj w l1 ++ proj w l2.
Proof. apply flat_map_app. Qed.

Lemma proj_nil w (l : list event) : (∀ e, e ∈ l -> proj1 w e = []) -> proj w l = [].
Proof.
  induction l as [|e l IH]; intros H; [done|]. cbn. rewrite H by left. cbn. apply IH. intros. apply H. by right.
Qed.

Lemma w_gen (T : list nat) es hp hp' st st' tr n n' :
  WC hp st tr n -> n <= n' ->
  (∀ e g, e ∈ es -> g ∉ T -> proj1 (Co g) e = [] ∧ ¬ is_create g e) ->
  (∀ g, g ∉ T -> fstatus <$> hp' !! g = fstatus <$> hp !! g) ->
  (∀ g c, g ∉ T -> (Co g, c) ∈ curs st' -> (Co g, c) ∈ curs st) ->
  (∀ g, g ∈ T -> WF g hp' st' (es ++ tr) ∧ g < n') ->
  WC hp' st' (es ++ tr) n'.
Proof.
  intros [H1 H2] Hn He Hh Hc HT.
  assert (HP : ∀ g, g ∉ T -> proj (Co g) (es ++ tr) = proj (Co g) tr).
  { intros g Hg. rewrite proj_app, proj_nil; [done|]. intros e Hin. by apply He. }
  assert (HC : ∀ g k c w, g ∉ T -> ECreate g k c w ∈ es ++ tr -> ECreate g k c w ∈ tr).
  { intros g k c w Hg [Hin|Hin]%elem_of_app; [|done]. exfalso. by eapply (He _ g Hin Hg). }
  split.
  - intros g. destruct (decide (g ∈ T)) as [Hg|Hg]; [by apply HT|].
    intros k c0 w Hcr. destruct (H1 g k c0 w (HC _ _ _ _ Hg Hcr)) as [E1 E2].
    rewrite HP, Hh by done. split; [done|]. eauto.
  - intros g Hg. destruct (decide (g ∈ T)) as [Hg'|Hg'].
    + destruct (HT g Hg'). lia.
    + rewrite HP by done. destruct (H2 g) as [E1 E2]; [lia|]. split; [done|].
      intros k c w Hin. by eapply E2, HC.
Qed.

(** One actor moves. *)
Lemma w_one f es hp hp' st st' tr n :
  WC hp st tr n -> f < n ->
  (∀ e g, e ∈ es -> g ≠ f -> proj1 (Co g) e = [] ∧ ¬ is_create g e) ->
  (∀ g, g ≠ f -> fstatus <$> hp' !! g = fstatus <$> hp !! g) ->
  (∀ g c, g ≠ f -> (Co g, c) ∈ curs st' -> (Co g, c) ∈ curs st) ->
  WF f hp' st' (es ++ tr) ->
  WC hp' st' (es ++ tr) n.
Proof.
  intros HW Hf He Hh Hc HT. eapply (w_gen [f]); [done|done|..].
  - intros e g Hin Hg. apply He; [done|]. set_solver.
  - intros g Hg. apply Hh. set_solver.
  - intros g c Hg. apply Hc. set_solver.
  - intros g ->%elem_of_list_singleton. done.
Qed.

(** Nobody's local history changes. *)
Lemma w_none es hp hp' st st' tr n n' :
  WC hp st tr n -> n <= n' ->
  (∀ e g, e ∈ es -> proj1 (Co g) e = [] ∧ ¬ is_create g e) ->
  (∀ g, fstatus <$> hp' !! g = fstatus <$> hp !! g) ->
  (∀ g c, (Co g, c) ∈ curs st' -> (Co g, c) ∈ curs st) ->
  WC hp' st' (es ++ tr) n'.
Proof. intros. eapply (w_gen []); eauto. by intros g ?%elem_of_nil. Qed.

(** The activation on top of the stack. *)
Lemma w_top f c hp st tr n k c0 w :
  WC hp (Run (Co f) c :: st) tr n -> ECreate f k c0 w ∈ tr -> cwalk c0 (proj (Co f) tr) (Some c).
Proof. intros [H1 _] Hcr. destruct (H1 f k c0 w Hcr) as [_ H]. apply H. rewrite curs_cons. left. Qed.

Lemma w_topl f vd x i en c hp st tr n k c0 w :
  WC hp (WaitLoop (Co f) vd x i en c :: st) tr n -> ECreate f k c0 w ∈ tr ->
  cwalk c0 (proj (Co f) tr) (Some (CUser (PWaitFor vd x c))).
Proof. intros [H1 _] Hcr. destruct (H1 f k c0 w Hcr) as [_ H]. apply H. rewrite curs_cons. left. Qed.

(** Local step of the running actor: an activation [Run w c] becomes [Run w c'] with one local event. *)
Lemma w_run w c c' i es l hp hp' st tr n :
  RC [w] hp st tr n -> WC hp (i :: st) tr n ->
  item_cur i = [(w, c)] ->
  (∀ f, w = Co f -> proj w es = [l] ∧ cadv c l (Some c')) ->
  (∀ e g, e ∈ es -> Co g ≠ w -> proj1 (Co g) e = []) ->
  (∀ e g, e ∈ es -> ¬ is_create g e) ->
  (∀ g, fstatus <$> hp' !! g = fstatus <$> hp !! g) ->
  WC hp' (Run w c' :: st) (es ++ tr) n.
Proof.
  intros HR HW Hi Hl He Hcr Hh. destruct w as [f|m].
  - destruct (Hl f eq_refl) as [Hp Ha].
    destruct (rc_co _ _ _ _ _ _ _ HR) as (fr & Hf & Hrun & _ & _ & Hna & Hlt).
    eapply w_one; [exact HW|done|..].
    + intros e g Hin Hg. split; [|by apply Hcr]. apply He; [done|congruence].
    + done.
    + intros g c1 Hg. rewrite !curs_cons, Hi. cbn. intros [[= -> ->]|H]%elem_of_cons; [done|]. by right.
    + intros k c0 w0 Hin. apply elem_of_app in Hin as [Hin|Hin].
      { exfalso. by eapply (Hcr _ f Hin). }
      rewrite Hh, Hf. cbn. rewrite Hrun. split; [done|].
      intros c1. rewrite curs_cons. cbn. intros [[= ->]|H]%elem_of_cons.
      * rewrite proj_app, Hp. cbn. econstructor; [|exact Ha].
        destruct HW as [HW _]. destruct (HW f k c0 w0 Hin) as [_ HH]. apply HH. rewrite curs_cons, Hi. left.
      * exfalso. apply Hna. cbn. by eapply curs_actors.
  - eapply w_none; [exact HW|done|..].
    + intros e g Hin. split; [|by apply Hcr]. by apply He.
    + done.
    + intros g c1. rewrite !curs_cons, Hi. cbn. intros [[=]|H]%elem_of_cons. by right.
Qed.

Ltac in1 := intros [->|H']%elem_of_cons; [|by apply elem_of_nil in H'].

(** The running coroutine suspends or ends. *)
Lemma w_leave f c e hp st st' tr n hp' fr' :
  RC [Co f] hp st tr n -> WC hp (Run (Co f) c :: st) tr n ->
  (∀ g, g ≠ f -> proj1 (Co g) e = []) -> (∀ g, ¬ is_create g e) ->
  hp' !! f = Some fr' ->
  (∀ g, g ≠ f -> fstatus <$> hp' !! g = fstatus <$> hp !! g) ->
  (curs st' = curs st) ->
  (∀ c0, cwalk c0 (proj (Co f) tr) (Some c) -> WS c0 (proj1 (Co f) e ++ proj (Co f) tr) (Some (fstatus fr'))) ->
  WC hp' st' (e :: tr) n.
Proof.
  intros HR HW He Hcr Hf' Hh Hc Hws.
  destruct (rc_co _ _ _ _ _ _ _ HR) as (fr & Hf & Hrun & _ & _ & Hna & Hlt).
  eapply (w_one f [e]); [exact HW|done|..].
  - intros e' g [->|H']%elem_of_cons Hg; [|by apply elem_of_nil in H']. auto.
  - done.
  - intros g c1 Hg. rewrite Hc, curs_cons. cbn. by right.
  - intros k c0 w0 [E|Hin]%elem_of_cons.
    { exfalso. apply (Hcr f). by rewrite <- E. }
    rewrite Hf'. cbn. split.
    + apply Hws. by eapply w_top.
    + intros c1. rewrite Hc. intros H. exfalso. apply Hna. cbn. by eapply curs_actors.
Qed.

(** A suspended coroutine is resumed on top of the stack. *)
Lemma w_enter f e c' l hp hp' st st' tr n fr :
  RC [] hp st tr n -> WC hp st tr n ->
  hp !! f = Some fr -> fstatus fr ≠ Running ->
  proj1 (Co f) e = [l] -> (∀ g, g ≠ f -> proj1 (Co g) e = []) -> (∀ g, ¬ is_create g e) ->
  fstatus <$> hp' !! f = Some Running ->
  (∀ g, g ≠ f -> fstatus <$> hp' !! g = fstatus <$> hp !! g) ->
  curs st' = curs st ->
  (∀ c0 l0, WS c0 l0 (Some (fstatus fr)) -> ∃ c, cwalk c0 l0 (Some c) ∧ cadv c l (Some c')) ->
  WC hp' (Run (Co f) c' :: st') (e :: tr) n.
Proof.
  intros HR HW Hf Hnr Hp He Hcr Hf' Hh Hc Hadv.
  assert (Hna : Co f ∉ actors st).
  { intros Hin. destruct (si_act _ _ _ _ (r_si _ _ _ _ _ _ HR) f Hin) as (fr' & ? & ?). congruence. }
  assert (Hlt : f < n).
  { destruct (decide (n <= f)) as [Hle|]; [|lia]. rewrite (si_bound _ _ _ _ (r_si _ _ _ _ _ _ HR) f Hle) in Hf. done. }
  eapply (w_one f [e]); [exact HW|done|..].
  - intros e' g [->|H']%elem_of_cons Hg; [|by apply elem_of_nil in H']. auto.
  - done.
  - intros g c1 Hg. rewrite curs_cons, Hc. cbn. by intros [[= -> ->]|?]%elem_of_cons.
  - intros k c0 w0 [E|Hin]%elem_of_cons.
    { exfalso. apply (Hcr f). by rewrite <- E. }
    rewrite Hf'. cbn. split; [done|].
    intros c1. rewrite curs_cons, Hc. cbn. intros [[= ->]|H]%elem_of_cons.
    + rewrite Hp. cbn. destruct HW as [HW _]. destruct (HW f k c0 w0 Hin) as [Hs _].
      rewrite Hf in Hs. destruct (Hadv _ _ Hs) as (c & H1 & H2). by econstructor.
    + exfalso. apply Hna. by eapply curs_actors.
Qed.

Lemma proj1_self_obs w o : proj1 w (EObs w o : event) = [LObs o].
Proof. cbn. by rewrite decide_True. Qed.
Lemma proj1_self_act w a : proj1 w (EAct w a : event) = [LAct a].
Proof. cbn. by rewrite decide_True. Qed.

Lemma kapply_adv c (hd : option nat) k o : await_of c hd k -> cadv c (LAwait o) (Some (kapply k o)).
Proof.
  intros [x c' hd'|i x hd']; cbn.
  - apply (cadv_user dflt (PAwait x c') (LAwait o) (Some (c' o))). constructor.
  - constructor.
Qed.

Lemma status_alter (g : frame -> frame) f (hp : gmap nat frame) x :
  (∀ fr, fstatus (g fr) = fstatus fr) -> fstatus <$> alter g f hp !! x = fstatus <$> hp !! x.
Proof.
  intros H. destruct (decide (x = f)) as [->|].
  - rewrite lookup_alter. destruct (hp !! f); cbn; by rewrite ?H.
  - by rewrite lookup_alter_ne.
Qed.

(** A call: the caller continues below, the new coroutine is created. *)
Lemma w_call w c c' i es i' n f0 hp st tr k cb st' frn :
  RC [w] hp st tr n -> WC hp (i :: st) tr n -> item_cur i = [(w, c)] ->
  f0 = n ->
  (∀ f, w = Co f -> match proj w es with [] => c' = c | [l] => cadv c l (Some c') | _ => False end) ->
  (∀ e g, e ∈ es -> Co g ≠ w -> proj1 (Co g) e = []) ->
  (∀ e g, e ∈ es -> is_create g e -> g = f0) ->
  (∀ k' cb' w', ECreate f0 k' cb' w' ∈ es -> k' = k ∧ cb' = cb) ->
  item_cur i' = [(w, c')] ->
  (∃ p, fstatus frn = Initial p ∧ cb = CUser p ∧ st' = i' :: st) ∨
  (fstatus frn = Running ∧ st' = Run (Co f0) cb :: i' :: st) ->
  WC (<[f0 := frn]> hp) st' (es ++ tr) (S n).
Proof.
  intros HR HW Hi -> Hl He Hcr Hcb Hi' Hst.
  pose proof (r_si _ _ _ _ _ _ HR) as S.
  pose proof (si_bound _ _ _ _ S n (le_n n)) as Hn.
  destruct (w_fresh _ _ _ _ HW n (le_n n)) as [Hpn Hcn].
  assert (Hwn : w ≠ Co n).
  { intros ->. destruct (si_act _ _ _ _ S n) as (fr & ? & ?); [left|]. congruence. }
  assert (Hnst : ∀ c1, (Co n, c1) ∉ curs st).
  { intros c1 Hin%curs_actors. destruct (si_act _ _ _ _ S n) as (fr & ? & ?); [cbn; by right|]. congruence. }
  assert (Hcurs : ∀ g c1, (Co g, c1) ∈ curs st' ->
    (g = n ∧ c1 = cb) ∨ (Co g = w ∧ c1 = c') ∨ (Co g, c1) ∈ curs st).
  { intros g c1 Hin. destruct Hst as [(p & _ & _ & ->)|[_ ->]]; rewrite ?curs_cons, ?Hi' in Hin; cbn in Hin.
    - apply elem_of_cons in Hin as [[= <- ->]|Hin]; [auto|]. auto.
    - apply elem_of_cons in Hin as [[= -> ->]|Hin]; [auto|].
      apply elem_of_cons in Hin as [[= <- ->]|Hin]; [auto|]. auto. }
  set (T := n :: match w with Co f => [f] | _ => [] end).
  assert (HT : ∀ g, g ∉ T -> g ≠ n ∧ Co g ≠ w).
  { intros g Hg. unfold T in Hg. apply not_elem_of_cons in Hg as [? Hg]. split; [done|].
    intros <-. by apply Hg, elem_of_list_singleton. }
  assert (Hpe : proj (Co n) es = []).
  { apply proj_nil. intros e Hin. apply He; [done|congruence]. }
  eapply (w_gen T); [exact HW|lia|..].
  - intros e g Hin [Hg1 Hg2]%HT. split; [by apply He|]. intros Hc. apply Hg1. by eapply Hcr.
  - intros g [Hg1 Hg2]%HT. by rewrite lookup_insert_ne.
  - intros g c1 [Hg1 Hg2]%HT Hin. apply Hcurs in Hin as [[? _]|[[? _]|?]]; [done|done|].
    rewrite curs_cons. apply elem_of_app. by right.
  - intros g [->|Hg]%elem_of_cons.
    + split; [|lia]. intros k0 c0 w0 [Hin|Hin]%elem_of_app; [|by destruct (Hcn _ _ _ Hin)].
      apply Hcb in Hin as [-> ->]. rewrite lookup_insert, proj_app, Hpe, Hpn. cbn. split.
      * destruct Hst as [(p & -> & -> & _)|[-> _]]; done.
      * intros c1 Hin. apply Hcurs in Hin as [[_ ->]|[[? _]|?]].
        -- constructor.
        -- by destruct Hwn.
        -- by edestruct Hnst.
    + destruct w as [f|m]; [|by apply elem_of_nil in Hg]. apply elem_of_list_singleton in Hg as ->.
      destruct (rc_co _ _ _ _ _ _ _ HR) as (fr & Hf & Hrun & _ & _ & Hna & Hlt).
      split; [|lia]. intros k0 c0 w0 Hin. apply elem_of_app in Hin as [Hin|Hin].
      { exfalso. assert (f = n) as -> by (by eapply (Hcr _ f Hin)). done. }
      rewrite lookup_insert_ne by congruence. rewrite Hf. cbn. rewrite Hrun. split; [done|].
      intros c1 Hc1. apply Hcurs in Hc1 as [[? _]|[[_ ->]|Hc1]].
      * congruence.
      * destruct HW as [HW _]. destruct (HW f k0 c0 w0 Hin) as [_ HH].
        assert (Hw : cwalk c0 (proj (Co f) tr) (Some c)). { apply HH. rewrite curs_cons, Hi. left. }
        specialize (Hl f eq_refl). rewrite proj_app. destruct (proj (Co f) es) as [|l [|]]; [by subst|..]; [|done].
        cbn. by econstructor.
      * exfalso. apply Hna. cbn. by eapply curs_actors.
Qed.

Lemma is_create_nil g (es : list event) : Forall (λ e, ∀ g, ¬ is_create g e) es -> ∀ e, e ∈ es -> ¬ is_create g e.
Proof. intros H e He. rewrite Forall_forall in H. by apply H. Qed.

Ltac inlist := repeat match goal with
  | H : _ ∈ _ :: _ |- _ => apply elem_of_cons in H as [?|H]
  | H : _ ∈ [] |- _ => by apply elem_of_nil in H
  end.

Theorem w_step q s s' : R s -> W s -> astep q s s' -> W s'.
Proof.
  intros HR HW Hs. pose proof (r_step _ _ _ _ _ HR Hs) as HR'. unfold W, TaskTrace.R in *.
  destruct Hs; cbn [heap stack trace nf push emit set_stack set_heap set_alive set_ctxs upd] in *;
    try match goal with H : stack s = _ |- _ => rewrite H in * end.
  - apply rc_pop in HR.
    assert (∃ l, proj w [e] = [l] ∧ cadv (CUser p) l (Some (CUser p')) ∧
      (∀ g, Co g ≠ w -> proj1 (Co g) e = []) ∧ ∀ g, ¬ is_create g e) as (l & L1 & L2 & L3 & L4).
    { assert (HH : ∀ l, adv p l (Some p') -> cadv (CUser p) l (Some (CUser p'))).
      { intros l Hl. by apply (cadv_user dflt p l (Some p')). }
      destruct H0; eexists; (split; [cbn; by rewrite decide_True|]; split; [apply HH; constructor|];
        split; [intros g Hg; cbn; by rewrite decide_False|intros g Hg; exact Hg]). }
    apply (w_run w (CUser p) (CUser p') (Run w (CUser p)) [e] l (heap s)); try done.
    + intros e' g ->%elem_of_list_singleton. auto.
    + intros e' g ->%elem_of_list_singleton. auto.
  - apply rc_pop in HR. set (b := bool_decide _).
    apply (w_run w (CUser (PAlive qq c)) (CUser (c b)) (Run w (CUser (PAlive qq c)))
      [EAct w (AAlive qq b)] (LAct (AAlive qq b)) (heap s)); try done.
    + intros f ->. cbn. rewrite decide_True by done. split; [done|].
      apply (cadv_user dflt _ _ (Some (c b))). constructor.
    + intros e' g ->%elem_of_list_singleton Hg. cbn. by rewrite decide_False.
    + intros e' g ->%elem_of_list_singleton Hc; exact Hc.
  - apply rc_pop in HR.
    apply (w_run w (CUser (PKill qq p)) (CUser p) (Run w (CUser (PKill qq p)))
      [EKill qq; EAct w AKill] (LAct AKill) (heap s)); try done.
    + intros f ->. cbn. rewrite decide_True by done. split; [done|].
      apply (cadv_user dflt _ _ (Some p)). constructor.
    + intros e' g Hin Hg. inlist; subst; cbn; rewrite ?decide_False by done; done.
    + intros e' g Hin Hc. inlist; subst; exact Hc.
  - apply rc_pop in HR.
    eapply (w_call w (CUser (PCall KTask ps b c)) (CUser (c t)) _
      [EStart (nf s); ECreate (nf s) KTask (CUser (b ps')) w; EAct w (ACall t (nf s) ps')]
      (Run w (CUser (c t))) (nf s) (nf s) (heap s) st (trace s) KTask (CUser (b ps'))); try done.
    + intros f ->. cbn. rewrite decide_True by done. cbn.
      apply (cadv_user dflt _ _ (Some (c t))). constructor.
    + intros e' g Hin Hg. inlist; subst; cbn; rewrite ?decide_False by done; done.
    + intros e' g Hin Hc. inlist; by subst.
    + intros k' cb' w' Hin. inlist; by simplify_eq.
    + right. done.
  - apply rc_pop in HR.
    eapply (w_call w (CUser (PCall KLazy ps b c)) (CUser (c t)) _
      [ECreate (nf s) KLazy (CUser (b ps')) w; EAct w (ACall t (nf s) ps')]
      (Run w (CUser (c t))) (nf s) (nf s) (heap s) st (trace s) KLazy (CUser (b ps'))); try done.
    + intros f ->. cbn. rewrite decide_True by done. cbn.
      apply (cadv_user dflt _ _ (Some (c t))). constructor.
    + intros e' g Hin Hg. inlist; subst; cbn; rewrite ?decide_False by done; done.
    + intros e' g Hin Hc. inlist; by subst.
    + intros k' cb' w' Hin. inlist; by simplify_eq.
    + left. exists (b ps'). done.
  - apply rc_pop in HR.
    eapply (w_call w (CUser (PWaitFor vd x c)) (CUser (PWaitFor vd x c)) _
      [EStart (nf s); ECreate (nf s) KTask (CWaitStart (nc s) x hd) w; EWaitCall w (nc s) (nf s) hd]
      (WaitLoop w vd x (nc s) false c) (nf s) (nf s) (heap s) st (trace s) KTask (CWaitStart (nc s) x hd)); try done.
    + intros e' g Hin Hg. inlist; subst; cbn; rewrite ?decide_False by done; done.
    + intros e' g Hin Hc. inlist; by subst.
    + intros k' cb' w' Hin. inlist; by simplify_eq.
    + right. done.
  - eapply (w_none []); [exact HW|done|..]; try done.
    + by intros e g ?%elem_of_nil.
    + intros g c1 Hin. rewrite curs_cons. by right.
  - apply rc_pop in HR. eapply (w_leave f (CUser p) (EFinish f o)); try done; try (intros ? Hc; exact Hc).
    + intros g Hg. cbn. by rewrite decide_False by congruence.
    + rewrite lookup_alter, H1. done.
    + intros g Hg. by rewrite lookup_alter_ne.
    + intros c0 Hw. cbn. rewrite decide_True by done. cbn. econstructor; [exact Hw|].
      destruct H0 as [(v & -> & ->)|(e & -> & ->)]; apply (cadv_user dflt _ _ None); constructor.
  - apply rc_pop in HR. eapply (w_leave f (CWaitSet i o) (EFinish f (Val dflt))); try done; try (intros ? Hc; exact Hc).
    + intros g Hg. cbn. by rewrite decide_False by congruence.
    + rewrite lookup_alter, H1. done.
    + intros g Hg. by rewrite lookup_alter_ne.
    + intros c0 Hw. cbn. rewrite decide_True by done. cbn. econstructor; [exact Hw|]. constructor.
  - apply rc_pop in HR. destruct (rc_co _ _ _ _ _ _ _ HR) as (fr & Hf & _).
    eapply (w_leave f c (EHang f)); try done; try (intros ? Hc; exact Hc).
    + by rewrite lookup_alter, Hf.
    + intros g Hg. by rewrite lookup_alter_ne.
    + intros c0 Hw. cbn. eauto.
  - apply rc_pop in HR.
    eapply (w_run (Co f) c (kapply k o) (Run (Co f) c) [ENow f h o] (LAwait o) (heap s)); try done.
    + intros f0 [= <-]. cbn. rewrite decide_True by done. split; [done|]. by eapply kapply_adv.
    + intros e' g ->%elem_of_list_singleton Hg. cbn. by rewrite decide_False.
    + intros e' g ->%elem_of_list_singleton Hc; exact Hc.
    + intros g. by apply status_alter.
  - apply rc_pop in HR. destruct (rc_co _ _ _ _ _ _ _ HR) as (ff & Hf & _).
    destruct (decide (f = h)) as [->|Hne].
    + eapply (w_leave h c (EWait h h)); try done; try (intros ? Hc; exact Hc).
      * by rewrite !lookup_alter, Hf.
      * intros g Hg. by rewrite !lookup_alter_ne.
      * intros c0 Hw. cbn. eauto.
    + eapply (w_leave f c (EWait f h)); try done; try (intros ? Hc; exact Hc).
      * by rewrite lookup_alter, lookup_alter_ne, Hf.
      * intros g Hg. rewrite lookup_alter_ne by done. by apply status_alter.
      * intros c0 Hw. cbn. eauto.
  - apply rc_pop in HR. destruct (rc_co _ _ _ _ _ _ _ HR) as (ff & Hf & Hfr & _ & _ & Hna & Hlt).
    assert (HW1 : WC (alter (fr_status (AwaitTask h k)) f
      (alter (λ fr0 : frame, fr_awaiters (fawaiters fr0 ++ [f]) fr0) h (heap s))) st (EWait f h :: trace s) (nf s)).
    { eapply (w_leave f c (EWait f h)); try done; try (intros ? Hc; exact Hc).
      * by rewrite lookup_alter, lookup_alter_ne, Hf.
      * intros g Hg. rewrite lookup_alter_ne by done. by apply status_alter.
      * intros c0 Hw. cbn. eauto. }
    assert (Hnh : Co h ∉ actors st).
    { intros Hin. destruct (si_act _ _ _ _ (r_si _ _ _ _ _ _ HR) h) as (fr' & ? & ?); [cbn; by right|]. congruence. }
    eapply (w_one h [EStart h]); [exact HW1|..].
    + destruct (decide (nf s <= h)) as [Hle|]; [|lia].
      rewrite (si_bound _ _ _ _ (r_si _ _ _ _ _ _ HR) h Hle) in H2. done.
    + intros e g ->%elem_of_list_singleton; (split; [done|intros Hc; exact Hc]).
    + intros g Hg. by rewrite lookup_alter_ne.
    + intros g c1 Hg. rewrite curs_cons. cbn. by intros [[= -> ->]|?]%elem_of_cons.
    + intros k0 c0 w0 Hin. cbn in Hin. apply elem_of_cons in Hin as [?|Hin]; [done|].
      destruct HW1 as [HW1 _]. destruct (HW1 h k0 c0 w0 Hin) as [E1 E2].
      rewrite lookup_alter. rewrite lookup_alter_ne in E1 |- * by done. rewrite lookup_alter in E1 |- *.
      rewrite H2 in E1 |- *. cbn in E1. rewrite H3 in E1. cbn. cbn in E1. destruct E1 as [-> E1]. split; [done|].
      intros c1 [[= ->]|Hin1]%elem_of_cons.
      * rewrite E1. constructor.
      * exfalso. apply Hnh. by eapply curs_actors.
  - apply rc_pop in HR. destruct (rc_co _ _ _ _ _ _ _ HR) as (fr & Hf & _).
    eapply (w_leave f (CUser (PLeaf c)) (ELeafWait f)); try done; try (intros ? Hc; exact Hc).
    + by rewrite lookup_alter, Hf.
    + intros g Hg. by rewrite lookup_alter_ne.
    + intros c0 Hw. exact Hw.
  - eapply (w_enter a (EWake a h o) (kapply k o) (LAwait o)); [exact HR|exact HW|exact H1|..]; try done; try (intros ? Hc; exact Hc).
    + by rewrite H2.
    + cbn. by rewrite decide_True.
    + intros g Hg. cbn. rewrite decide_False; [done|congruence].
    + rewrite lookup_alter_ne by done. rewrite lookup_alter, H1. done.
    + intros g Hg. rewrite status_alter by done. by rewrite lookup_alter_ne.
    + intros c0 l0. rewrite H2. cbn. intros (c & Hw & Ha). exists c. split; [done|]. by eapply kapply_adv.
  - eapply (w_none []); [exact HW|done|..]; try done. by intros e g ?%elem_of_nil.
  - eapply (w_gen [h] [EDestroy h]); [exact HW|done|..].
    + intros e g ->%elem_of_list_singleton; (split; [done|intros Hc; exact Hc]).
    + intros g Hg. rewrite lookup_delete_ne; [done|]. set_solver.
    + done.
    + intros g ->%elem_of_list_singleton. split.
      * intros k0 c0 w0 [?|Hin]%elem_of_cons; [done|].
        destruct HW as [HW _]. destruct (HW h k0 c0 w0 Hin) as [E1 E2]. rewrite lookup_delete. cbn.
        rewrite H in E1. cbn in E1. unfold is_final in H0. destruct (fstatus fr); try done.
      * destruct (decide (nf s <= h)) as [Hle|]; [|lia].
        rewrite (si_bound _ _ _ _ (r_si _ _ _ _ _ _ HR) h Hle) in H. done.
  - eapply (w_none [ELoop i]); [exact HW|done|..]; try done. intros e g ->%elem_of_list_singleton; (split; [done|intros Hc; exact Hc]).
  - apply rc_popl in HR.
    eapply (w_run w (CUser (PWaitFor vd x c)) (CUser (c o)) _ [EWaitRet w i o] (LWaitRet o) (heap s)); try done.
    + intros f ->. cbn. rewrite decide_True by done. split; [done|].
      apply (cadv_user dflt _ _ (Some (c o))). constructor.
    + intros e' g ->%elem_of_list_singleton Hg. cbn. by rewrite decide_False.
    + intros e' g ->%elem_of_list_singleton Hc; exact Hc.
  - eapply (w_none []); [exact HW|lia|..]; try done.
    + by intros e g ?%elem_of_nil.
    + intros g c1. rewrite curs_cons. cbn. by intros [?|?]%elem_of_cons.
  - eapply (w_enter f (ELeafWake f o) (CUser (c o)) (LLeaf o)); [exact HR|exact HW|exact H0|..]; try done; try (intros ? Hc; exact Hc).
    + by rewrite H1.
    + cbn. by rewrite decide_True.
    + intros g Hg. cbn. rewrite decide_False; [done|congruence].
    + by rewrite lookup_alter, H0.
    + intros g Hg. by rewrite lookup_alter_ne.
    + intros c0 l0. rewrite H1. cbn. intros Hw. eexists. split; [done|].
      apply (cadv_user dflt _ _ (Some (c o))). constructor.
  - eapply (w_none [EKill qq]); [exact HW|done|..]; try done. intros e g ->%elem_of_list_singleton; (split; [done|intros Hc; exact Hc]).
  - apply rc_popl in HR.
    eapply (w_run w (CUser (PWaitFor true x c)) (CUser (c (Val dflt))) _ [EWaitRet w i (Val dflt)]
      (LWaitRet (Val dflt)) (heap s)); try done.
    + intros f ->. cbn. rewrite decide_True by done. split; [done|].
      apply (cadv_user dflt _ _ (Some (c (Val dflt)))). constructor.
    + intros e' g ->%elem_of_list_singleton Hg. cbn. by rewrite decide_False.
    + intros e' g ->%elem_of_list_singleton Hc; exact Hc.
Qed.

Lemma w_init qs : W (init qs).
Proof.
  split.
  - intros f k c0 w Hin. by apply elem_of_nil in Hin.
  - intros f _. split; [done|]. intros k c w Hin. by apply elem_of_nil in Hin.
Qed.

Theorem rw_reach q s : reach mv dflt q s -> R (view s) ∧ W (view s).
Proof.
  apply (view_invariant mv dflt q (λ s, R s ∧ W s)).
  - intros qs. split; [apply r_init|apply w_init].
  - intros s1 s2 [H1 H2] Hs. split; [by eapply r_step|by eapply w_step].
Qed.
End walk.
