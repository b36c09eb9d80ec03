(** * Invariants of coroutines awaiting signals of one object *)
From stdpp Require Import prelude.
From Verif Require Import AwaitModel AwaitSpec.

Section facts.
Context {S P : Type}.
Implicit Types (s : ast S P) (tr w : list (aev S P)).

Definition ids (s : ast S P) : list nat := map c_id (a_conns s).
Fixpoint for_id (id : nat) (l : list (nat * nat * P)) : list P :=
  match l with [] => [] | e :: l => if decide (pid e = id) then e.2 :: for_id id l else for_id id l end.
Fixpoint pend (id : nat) (l : list (slot S P)) : list P :=
  match l with [] => [] | SCall c p :: l => if decide (c_id c = id) then p :: pend id l else pend id l | SDone :: l => pend id l end.

(** Who a connection or a pending single shot belongs to. *)
Definition owned (s : ast S P) (i id : nat) (k : kind) (sg : S -> bool) : Prop :=
  (∃ dl w, a_co s i = CWait id k dl ∧ suspended_in i k sg w (a_tr s)) ∨
  (a_co s i = CDead ∧ cuts k = false ∧ destroyed_in i k sg (a_tr s)).
Definition mine (s : ast S P) (i id : nat) : Prop := id < a_next s ∧ ∀ j k dl, a_co s j = CWait id k dl -> j = i.

Record inv s : Prop := Inv {
  v_conn c : c ∈ a_conns s -> mine s (c_co c) (c_id c) ∧ owned s (c_co c) (c_id c) (c_kind c) (c_sig c);
  v_nodup : NoDup (ids s);
  v_posted e : e ∈ a_posted s -> mine s e.1.2 e.1.1 ∧ ∃ k dl, a_co s e.1.2 = CWait e.1.1 k dl ∧ cuts k = true;
  v_shot e : e ∈ a_shots s -> mine s e.1.2 e.1.1 ∧ (∃ sg, owned s e.1.2 e.1.1 KDevice sg) ∧ e.1.1 ∉ ids s;
  v_shots : NoDup (map pid (a_shots s));
  v_emit c p : SCall c p ∈ a_emit s -> c_id c < a_next s ∧ (∀ c', c' ∈ a_conns s -> c_id c' = c_id c -> c' = c) ∧ (∀ j k dl, a_co s j = CWait (c_id c) k dl -> j = c_co c);
  v_wait i id k dl : a_co s i = CWait id k dl -> mine s i id ∧
    ∃ w sg t0 r, suspended_in i k sg w (a_tr s) ∧ dl = deadline k t0 ∧ a_now s = t0 + ticks w ∧
      hits sg w ≡ₚ for_id id (a_shots s) ++ for_id id (a_posted s) ++ r ∧
      (flat (a_tr s) -> hits sg w = for_id id (a_shots s) ++ for_id id (a_posted s) ++ r) ∧
      (id ∈ ids s -> r = pend id (a_emit s)) ∧
      (a_obj s = true -> id ∈ ids s ∨ k = KDevice ∧ for_id id (a_shots s) ≠ []);
  v_done : (a_emit s = [] ∨ ∃ l, a_emit s = l ++ [SDone]) ∧ depth (a_tr s) = length (filter (λ x, is_done x = true) (a_emit s));
  v_gone : a_obj s = true <-> EGone ∉ a_tr s;
  v_dead i : EDestroyed i ∈ a_tr s <-> a_co s i = CDead }.

Lemma susp_cons i k sg w tr e : about i e = false -> suspended_in i k sg w tr -> suspended_in i k sg (e :: w) (e :: tr).
Proof. intros E (u & -> & Q). exists u. split; [done|by constructor]. Qed.
Lemma dest_cons i k sg tr e : about i e = false -> destroyed_in i k sg tr -> destroyed_in i k sg (e :: tr).
Proof. intros E (w1 & w & t & -> & Q & U). exists (e :: w1), w, t. split; [done|]. split; [by constructor|done]. Qed.

Lemma susp_fun i k sg w tr k' sg' w' : suspended_in i k sg w tr -> suspended_in i k' sg' w' tr -> k' = k ∧ sg' = sg ∧ w' = w.
Proof.
  intros (u & -> & Q) (u' & E & Q'). revert w' E Q'. induction w as [|e w IH]; intros [|e' w'] E Q'; simplify_eq/=; try done.
  - inversion Q' as [|?? H]; subst. simpl in H. by rewrite bool_decide_true in H.
  - inversion Q as [|?? H]; subst. simpl in H. by rewrite bool_decide_true in H.
  - inversion Q; inversion Q'; subst. destruct (IH ltac:(done) w') as (-> & -> & ->); done.
Qed.

Lemma for_id_app id l l' : for_id id (l ++ l') = for_id id l ++ for_id id l'.
Proof. induction l as [|e l IH]; simpl; [done|]. rewrite IH. by destruct decide. Qed.
Lemma for_id_others id id' l : id ≠ id' -> for_id id (others id' pid l) = for_id id l.
Proof.
  intros N. unfold others. induction l as [|e l IH]; [done|]. rewrite filter_cons. destruct (decide (pid e ≠ id')) as [M|M]; simpl; rewrite IH; [done|].
  rewrite decide_False; [done|]. intros X. apply M. congruence.
Qed.
Lemma for_id_nil id l : (∀ e, e ∈ l -> pid e ≠ id) -> for_id id l = [].
Proof.
  intros H. induction l as [|e l IH]; [done|]. simpl. rewrite decide_False by (apply H; left). apply IH. intros e' E. apply H. by right.
Qed.
Lemma pend_app id l l' : pend id (l ++ l') = pend id l ++ pend id l'.
Proof. induction l as [|[c p|] l IH]; simpl; [done| |done]. rewrite IH. by destruct decide. Qed.
Lemma pend_nil id l : (∀ c p, SCall c p ∈ l -> c_id c ≠ id) -> pend id l = [].
Proof.
  intros H. induction l as [|[c p|] l IH]; simpl; [done| |].
  - rewrite decide_False by (apply (H c p); left). apply IH. intros c' p' E. apply (H c' p'). by right.
  - apply IH. intros c' p' E. apply (H c' p'). by right.
Qed.
Lemma pend_emit id p (x : S) (l : list (conn S)) (e : list (slot S P)) : NoDup (map c_id l) -> (∀ c, c ∈ l -> c_id c = id -> c_sig c x = true) -> id ∈ map c_id l ->
  pend id (map (λ c, SCall c p) (filter (λ c, c_sig c x = true) l) ++ SDone :: e) = p :: pend id e.
Proof.
  intros N H M. rewrite pend_app. simpl. change (p :: ?x) with ([p] ++ x). f_equal.
  induction l as [|c l IH]; [by apply elem_of_nil in M|]. simpl in *. apply NoDup_cons in N as [N1 N2]. rewrite filter_cons. destruct (decide (c_id c = id)) as [<-|NE].
  - rewrite decide_True by (apply H; [left|done]). simpl. rewrite decide_True by done. f_equal.
    apply pend_nil. intros c' p' E. apply elem_of_list_fmap in E as (c2 & [= -> ->] & E). apply elem_of_list_filter in E as [_ E].
    intros X. apply N1. rewrite <- X. by apply elem_of_list_fmap_1.
  - apply elem_of_cons in M as [M|M]; [done|]. specialize (IH N2 (λ c' E, H c' (elem_of_list_further _ _ _ E)) M).
    destruct (decide (c_sig c x = true)); simpl; [rewrite decide_False by done|]; done.
Qed.
Lemma pend_emit_no id p (x : S) (l : list (conn S)) (e : list (slot S P)) : (∀ c, c ∈ l -> c_id c = id -> c_sig c x = false) ->
  pend id (map (λ c, SCall c p) (filter (λ c, c_sig c x = true) l) ++ SDone :: e) = pend id e.
Proof.
  intros H. rewrite pend_app. simpl. rewrite (pend_nil id (map _ _)); [done|]. intros c' p' E. apply elem_of_list_fmap in E as (c2 & [= -> ->] & E). apply elem_of_list_filter in E as [E1 E].
  intros X. rewrite (H _ E X) in E1. done.
Qed.
Lemma conn_others c id (l : list (conn S)) : c ∈ others id c_id l <-> c ∈ l ∧ c_id c ≠ id.
Proof. unfold others. rewrite elem_of_list_filter. tauto. Qed.
Lemma ids_others id id' (l : list (conn S)) : id ∈ map c_id (others id' c_id l) <-> id ∈ map c_id l ∧ id ≠ id'.
Proof.
  rewrite !elem_of_list_fmap. setoid_rewrite conn_others. split.
  - intros (c & -> & E & N). split; [by exists c|done].
  - intros [(c & -> & E) N]. by exists c.
Qed.
Lemma nodup_others {A} id (f : A -> nat) (l : list A) : NoDup (map f l) -> NoDup (map f (others id f l)).
Proof.
  intros N. induction l as [|c l IH]; [done|]. simpl in N. apply NoDup_cons in N as [N1 N2]. unfold others. rewrite filter_cons. destruct decide; [|by apply IH].
  simpl. apply NoDup_cons. split; [|by apply IH]. intros E. apply N1. apply elem_of_list_fmap in E as (c' & X & E). rewrite X.
  apply elem_of_list_fmap_1. by apply elem_of_list_filter in E as [_ E].
Qed.
Lemma upd_eq i c (f : nat -> cst) : upd i c f i = c.
Proof. unfold upd. by rewrite decide_True. Qed.
Lemma upd_ne i j c (f : nat -> cst) : j ≠ i -> upd i c f j = f j.
Proof. intros N. unfold upd. by rewrite decide_False. Qed.

Lemma about_ne i j v : j ≠ i -> about j (EResume i v : aev S P) = false ∧ about j (EDestroyed i : aev S P) = false ∧ (∀ k sg, about j (EAwait i k sg : aev S P) = false).
Proof. intros N. simpl. by rewrite bool_decide_false by congruence. Qed.

Lemma owned_log s s' i id k sg e : a_co s' i = a_co s i -> a_tr s' = e :: a_tr s -> about i e = false -> owned s i id k sg -> owned s' i id k sg.
Proof.
  intros C T A [(dl & w & O1 & O2)|(O1 & O2 & O3)]; unfold owned; rewrite C, T; [left|right].
  - exists dl, (e :: w). split; [done|by apply susp_cons].
  - split; [done|]. split; [done|]. by apply dest_cons.
Qed.
Lemma owned_same s s' i id k sg : a_co s' i = a_co s i -> a_tr s' = a_tr s -> owned s i id k sg -> owned s' i id k sg.
Proof. unfold owned. by intros -> ->. Qed.
Lemma mine_same s s' i id : a_co s' = a_co s -> a_next s' = a_next s -> mine s i id -> mine s' i id.
Proof. unfold mine. by intros -> ->. Qed.

Lemma mine_upd s s' i id j c : a_co s' = upd j c (a_co s) -> a_next s ≤ a_next s' -> (∀ id' k dl, c = CWait id' k dl -> id' = a_next s) -> mine s i id -> mine s' i id.
Proof.
  intros C N H [M1 M2]. unfold mine. rewrite C. split; [lia|]. intros j' k dl. unfold upd. destruct decide; [|apply M2].
  intros ->. apply (H _ k dl) in M1 as H'; [lia|done] || (pose proof (H _ _ _ eq_refl); lia).
Qed.

Lemma inv_resume s i id k dl v ps sh em : inv s -> a_co s i = CWait id k dl ->
  (∀ e, e ∈ ps -> e ∈ a_posted s) -> (∀ id', id' ≠ id -> for_id id' ps = for_id id' (a_posted s)) ->
  (∀ e, e ∈ sh -> e ∈ a_shots s ∧ pid e ≠ id) -> (∀ id', id' ≠ id -> for_id id' sh = for_id id' (a_shots s)) -> NoDup (map pid sh) ->
  (∀ c p, SCall c p ∈ em -> SCall c p ∈ a_emit s) -> (∀ id', id' ≠ id -> pend id' em = pend id' (a_emit s)) ->
  (em = [] ∨ ∃ l, em = l ++ [SDone]) -> length (filter (λ x, is_done x = true) em) = length (filter (λ x, is_done x = true) (a_emit s)) ->
  inv (resume i id v (Ast (a_obj s) (a_co s) (a_conns s) ps sh em (a_now s) (a_next s) (a_ub s) (a_tr s))).
Proof.
  intros I W P1 P2 S1 S2 S3 E1 E2 E3 E4. destruct (v_wait _ I _ _ _ _ W) as [[Wn Wm] _].
  assert (∀ j id' k' sg, j ≠ i ∨ id' ≠ id -> owned s j id' k' sg -> ∀ s', a_co s' = upd i CRun (a_co s) -> a_tr s' = EResume i v :: a_tr s -> j ≠ i ∧ owned s' j id' k' sg) as OW.
  { intros j id' k' sg N O s' C' T'. assert (j ≠ i) as Nj. { intros ->. destruct O as [(? & ? & O & _)|(O & _)]; rewrite W in O; simplify_eq. destruct N; done. }
    split; [done|]. eapply (owned_log s); [|exact T'|by apply about_ne|exact O]. by rewrite C', upd_ne. }
  constructor; simpl.
  - intros c [Hc N]%conn_others. destruct (v_conn _ I c Hc) as [M O]. split.
    + eapply mine_upd; [done|done| |exact M]. done.
    + eapply OW; [by right|done|done|done].
  - apply nodup_others, (v_nodup _ I).
  - intros e [N He]%elem_of_list_filter. destruct (v_posted _ I e (P1 _ He)) as [M (k' & dl' & C & D)]. split.
    + eapply mine_upd; [done|done| |exact M]. done.
    + exists k', dl'. rewrite upd_ne; [done|]. intros X. rewrite X, W in C. by injection C as ? ? ?.
  - intros e [He N]%S1. destruct (v_shot _ I e He) as (M & (sg & O) & D). split; [|split].
    + eapply mine_upd; [done|done| |exact M]. done.
    + exists sg. eapply OW; [by right|done|done|done].
    + unfold ids. simpl. rewrite ids_others. tauto.
  - done.
  - intros c p He%E1. destruct (v_emit _ I c p He) as (M1 & M2 & M3). split; [done|]. split.
    + intros c' [Hc _]%conn_others. by apply M2.
    + intros j k' dl'. unfold upd. destruct decide; [done|]. apply M3.
  - intros j id' k' dl'. unfold upd. destruct decide as [|Nj]; [done|]. intros C. destruct (v_wait _ I _ _ _ _ C) as (L & w & sg & t0 & r & T1 & T2 & T3 & T4 & T5 & T6 & T7).
    assert (id' ≠ id) as N. { intros ->. by apply Nj, (Wm _ _ _ C). }
    split; [by eapply mine_upd|]. exists (EResume i v :: w), sg, t0, r. simpl. split; [apply susp_cons; [by apply about_ne|done]|].
    split; [done|]. split; [done|]. rewrite S2, for_id_others, P2, E2 by done. split; [done|]. split; [done|]. unfold ids. simpl. rewrite ids_others. split; [intros [H _]; by apply T6|]. intros H.
    destruct (T7 H) as [H1|H1]; [by left|by right].
  - split; [done|]. rewrite E4. apply (v_done _ I).
  - rewrite not_elem_of_cons. destruct (v_gone _ I) as [G1 G2]. split; [intros H; split; [done|tauto]|tauto].
  - intros j. rewrite elem_of_cons. pose proof (v_dead _ I j) as D. unfold upd. destruct decide as [->|]; [|split; [intros [|]; [done|tauto]|intros; right; tauto]].
    split; [|done]. intros [|H]; [done|]. apply D in H. congruence.
Qed.

(** Nothing changes but the trace, by an event about no coroutine, the object's state or the emissions in progress. *)
Lemma inv_await s i k sg : inv s -> a_obj s = true -> a_co s i = CRun ->
  inv (Ast true (upd i (CWait (a_next s) k (deadline k (a_now s))) (a_co s)) (a_conns s ++ [Conn (a_next s) i k sg]) (a_posted s) (a_shots s) (a_emit s)
    (a_now s) (Datatypes.S (a_next s)) (a_ub s) (EAwait i k sg :: a_tr s)).
Proof.
  intros I OB W. set (s' := Ast _ _ _ _ _ _ _ _ _ _).
  assert (∀ j id k' sg', owned s j id k' sg' -> j ≠ i ∧ owned s' j id k' sg') as OW.
  { intros j id k' sg' O. assert (j ≠ i) as Nj. { intros ->. destruct O as [(? & ? & O & _)|(O & _)]; by rewrite W in O. }
    split; [done|]. eapply (owned_log s); [|done|by apply (about_ne i j None)|exact O]. simpl. by rewrite upd_ne. }
  assert (∀ j id, mine s j id -> mine s' j id) as MI.
  { intros j id M. eapply mine_upd; [done|simpl; lia| |exact M]. by intros ??? [=]. }
  constructor.
  - intros c [Hc|Hc]%elem_of_app.
    + destruct (v_conn _ I c Hc) as [M O]. split; [by apply MI|by apply OW].
    + apply elem_of_list_singleton in Hc as ->. simpl. split.
      * split; [simpl; lia|]. intros j k' dl'. simpl. unfold upd. destruct decide; [done|]. intros C. destruct (v_wait _ I _ _ _ _ C) as [[L _] _]. lia.
      * left. exists (deadline k (a_now s)), []. simpl. rewrite upd_eq. split; [done|]. exists (a_tr s). split; [done|constructor].
  - unfold ids. simpl. rewrite map_app. apply NoDup_app. split; [apply (v_nodup _ I)|]. split; [|apply NoDup_singleton].
    intros id E X%elem_of_list_singleton. apply elem_of_list_fmap in E as (c & -> & E). destruct (v_conn _ I c E) as [[L _] _]. simpl in X. lia.
  - intros e He. destruct (v_posted _ I e He) as [M (k' & dl' & C & D)]. split; [by apply MI|]. exists k', dl'. simpl. rewrite upd_ne; [done|]. intros X. by rewrite X, W in C.
  - intros e He. destruct (v_shot _ I e He) as (M & (sg' & O) & D). split; [by apply MI|]. split; [exists sg'; by apply OW|]. unfold ids. simpl. rewrite map_app, elem_of_app.
    intros [X|X%elem_of_list_singleton]; [done|]. destruct M as [M _]. simpl in X. lia.
  - apply (v_shots _ I).
  - intros c p He. destruct (v_emit _ I c p He) as (M1 & M2 & M3). simpl. split; [lia|]. split.
    + intros c' [E|E%elem_of_list_singleton]%elem_of_app; [by apply M2|]. intros X. subst c'. simpl in X. lia.
    + intros j k' dl'. unfold upd. destruct decide; [|apply M3]. intros [= X]. lia.
  - intros j id' k' dl'. simpl. unfold upd. destruct decide as [->|Nj].
    + intros [= <- <- <-]. split.
      * split; [simpl; lia|]. intros j k' dl'. simpl. unfold upd. destruct decide; [done|]. intros C. destruct (v_wait _ I _ _ _ _ C) as [[L _] _]. lia.
      * exists [], sg, (a_now s), []. split; [exists (a_tr s); split; [done|constructor]|]. split; [done|]. split; [simpl; lia|]. simpl.
        rewrite (for_id_nil _ (a_shots s)), (for_id_nil _ (a_posted s)), (pend_nil _ (a_emit s)).
        -- split; [done|]. split; [done|]. split; [done|]. intros _. left. unfold ids. simpl. rewrite map_app, elem_of_app. right. by left.
        -- intros c p He. destruct (v_emit _ I c p He) as (M1 & M2 & M3). lia.
        -- intros e He. destruct (v_posted _ I e He) as [[M _] _]. unfold pid. lia.
        -- intros e He. destruct (v_shot _ I e He) as [[M _] _]. unfold pid. lia.
    + intros C. destruct (v_wait _ I _ _ _ _ C) as (M & w & sg' & t0 & r & T1 & T2 & T3 & T4 & T5 & T6 & T7). split; [by apply MI|].
      exists (EAwait i k sg :: w), sg', t0, r. split; [apply susp_cons; [by apply (about_ne i j None)|done]|]. split; [done|]. split; [done|]. simpl.
      split; [done|]. split; [done|]. unfold ids. simpl. rewrite map_app, elem_of_app. split.
      * intros [X|X%elem_of_list_singleton]; [by apply T6|]. destruct M as [M _]. simpl in X. lia.
      * intros H. destruct (T7 OB) as [X|X]; [left; by left|by right].
  - apply (v_done _ I).
  - simpl. rewrite not_elem_of_cons. pose proof (proj1 (v_gone _ I) OB). done.
  - intros j. simpl. rewrite elem_of_cons. pose proof (v_dead _ I j) as D. unfold upd. destruct decide as [->|]; [|split; [intros [|]; [done|tauto]|intros; right; tauto]].
    split; [|done]. intros [|H]; [done|]. apply D in H. congruence.
Qed.

Lemma inv_destroy s i cs ps : inv s -> a_co s i ≠ CDead ->
  (∀ c, c ∈ cs -> c ∈ a_conns s ∧ ∀ dl k, a_co s i = CWait (c_id c) k dl -> cuts k = false) -> (∀ c, c ∈ a_conns s -> c_co c ≠ i -> c ∈ cs) -> NoDup (map c_id cs) ->
  (∀ e, e ∈ ps -> e ∈ a_posted s ∧ e.1.2 ≠ i) -> (∀ j id k dl, j ≠ i -> a_co s j = CWait id k dl -> for_id id ps = for_id id (a_posted s)) ->
  inv (log (EDestroyed i) (Ast (a_obj s) (upd i CDead (a_co s)) cs ps (a_shots s) (a_emit s) (a_now s) (a_next s) (a_ub s) (a_tr s))).
Proof.
  intros I W C1 C2 C3 P1 P2. set (s' := log _ _).
  assert (∀ j id k' sg', (j = i -> cuts k' = false) -> owned s j id k' sg' -> owned s' j id k' sg') as OW.
  { intros j id k' sg' N O. destruct (decide (j = i)) as [->|Nj].
    - destruct O as [(dl & w & O1 & O2)|(O & _)]; [|done]. right. split; [simpl; by rewrite upd_eq|]. split; [by apply N|].
      exists [], w, (a_tr s). split; [done|]. split; [constructor|done].
    - eapply (owned_log s); [|done|by apply (about_ne i j None)|exact O]. simpl. by rewrite upd_ne. }
  assert (∀ j id, mine s j id -> mine s' j id) as MI by (intros j id M; by eapply mine_upd).
  constructor.
  - intros c Hc. destruct (C1 c Hc) as [Hc' N]. destruct (v_conn _ I c Hc') as [M O]. split; [by apply MI|]. apply OW; [|done].
    intros X. rewrite X in O. destruct O as [(dl & w & O1 & O2)|(O & _)]; [by apply (N dl)|done].
  - done.
  - intros e He. destruct (P1 e He) as [He' Ne]. destruct (v_posted _ I e He') as [M (k' & dl' & C & D)]. split; [by apply MI|]. exists k', dl'. simpl. by rewrite upd_ne.
  - intros e He. destruct (v_shot _ I e He) as (M & (sg' & O) & D). split; [by apply MI|]. split; [exists sg'; by apply OW|]. intros X. apply D. unfold ids in *. simpl in X.
    apply elem_of_list_fmap in X as (c & -> & X). apply elem_of_list_fmap_1. by apply C1.
  - apply (v_shots _ I).
  - intros c p He. destruct (v_emit _ I c p He) as (M1 & M2 & M3). split; [done|]. split.
    + intros c' E. apply M2. by apply C1.
    + intros j k' dl'. simpl. unfold upd. destruct decide; [done|]. apply M3.
  - intros j id' k' dl'. simpl. unfold upd. destruct decide as [->|Nj]; [done|]. intros C. destruct (v_wait _ I _ _ _ _ C) as (M & w & sg' & t0 & r & T1 & T2 & T3 & T4 & T5 & T6 & T7).
    split; [by apply MI|]. exists (EDestroyed i :: w), sg', t0, r. split; [apply susp_cons; [by apply (about_ne i j None)|done]|]. split; [done|]. split; [done|]. simpl.
    rewrite (P2 _ _ _ _ Nj C). split; [done|]. split; [done|]. split.
    + intros X. apply T6. unfold ids in *. simpl in X. apply elem_of_list_fmap in X as (c & -> & X). apply elem_of_list_fmap_1. by apply C1.
    + intros H. destruct (T7 H) as [X|X]; [left|by right]. unfold ids in *. simpl. apply elem_of_list_fmap in X as (c & -> & X). apply elem_of_list_fmap_1.
      apply C2; [done|]. destruct (v_conn _ I c X) as [[_ Mc] _]. by rewrite <- (Mc _ _ _ C).
  - apply (v_done _ I).
  - simpl. rewrite not_elem_of_cons. destruct (v_gone _ I) as [G1 G2]. split; [intros H; split; [done|tauto]|tauto].
  - intros j. simpl. rewrite elem_of_cons. pose proof (v_dead _ I j) as D. unfold upd. destruct decide as [->|Nj].
    + split; [done|]. intros _. by left.
    + split; [intros [[= ->]|H]; [done|tauto]|intros; right; tauto].
Qed.

Lemma inv_emit s x p : inv s -> a_obj s = true ->
  inv (log (EEmit x p) (set_emit (map (λ c, SCall c p) (filter (λ c, c_sig c x = true) (a_conns s)) ++ SDone :: a_emit s) s)).
Proof.
  intros I OB. set (s' := log _ _). assert (∀ j id k' sg', owned s j id k' sg' -> owned s' j id k' sg') as OW by (intros; by eapply (owned_log s)).
  constructor.
  - intros c Hc. destruct (v_conn _ I c Hc) as [M O]. split; [done|by apply OW].
  - apply (v_nodup _ I).
  - apply (v_posted _ I).
  - intros e He. destruct (v_shot _ I e He) as (M & (sg' & O) & D). split; [done|]. split; [exists sg'; by apply OW|done].
  - apply (v_shots _ I).
  - intros c p' He. simpl in *. apply elem_of_app in He as [He|[?|He]%elem_of_cons]; [|done|by apply (v_emit _ I c p')].
    apply elem_of_list_fmap in He as (c' & [= <- <-] & He). apply elem_of_list_filter in He as [_ He]. destruct (v_conn _ I c He) as [M O]. split; [apply M|]. split.
    + intros c'' H E. pose proof (v_nodup _ I) as N. unfold ids in N. apply elem_of_list_lookup in H as [n1 H], He as [n2 H2].
      assert (n1 = n2) as ->. { eapply (NoDup_lookup (map c_id (a_conns s))); [done|..]; rewrite list_lookup_fmap; [rewrite H|rewrite H2]; simpl; by rewrite ?E. } congruence.
    + intros j k dl C. symmetry. apply M in C. done.
  - intros j id' k' dl' C. change (a_co s j = CWait id' k' dl') in C. destruct (v_wait _ I _ _ _ _ C) as (M & w & sg' & t0 & r & T1 & T2 & T3 & T4 & T5 & T6 & T7).
    split; [done|]. destruct (decide (id' ∈ ids s)) as [Y|Y].
    + assert (pend id' (a_emit s') = (if sg' x then [p] else []) ++ pend id' (a_emit s)) as PE.
      { assert (∀ c, c ∈ a_conns s -> c_id c = id' -> c_sig c = sg') as SG.
        { intros c Hc <-. destruct (v_conn _ I c Hc) as [[_ Mc] O]. pose proof (Mc _ _ _ C) as X. subst j. destruct O as [(dl & w' & O1 & O2)|(O & _)]; [|congruence].
          by destruct (susp_fun _ _ _ _ _ _ _ _ T1 O2) as (_ & -> & _). }
        simpl. destruct (sg' x) eqn:X.
        - rewrite pend_emit; [done|apply (v_nodup _ I)| |done]. intros c Hc E. by rewrite (SG c Hc E).
        - rewrite pend_emit_no; [done|]. intros c Hc E. by rewrite (SG c Hc E). }
      exists (EEmit x p :: w), sg', t0, (pend id' (a_emit s')). split; [by apply susp_cons|]. split; [done|]. split; [done|]. split; [|split; [|split]]; [| |done|done].
      * rewrite PE. simpl. rewrite T4, (T6 Y). by rewrite <- !app_assoc, (Permutation_app_comm (pend id' _)).
      * intros [F0 F]. simpl in F0. destruct (v_done _ I) as [D1 D2]. assert (a_emit s = []) as EM.
        { destruct D1 as [|[l D1]]; [done|]. rewrite F0, D1, filter_app, app_length in D2. simpl in D2. lia. }
        rewrite PE. simpl. rewrite (T5 F), (T6 Y), EM. simpl. by rewrite !app_nil_r, <- !app_assoc.
    + exists (EEmit x p :: w), sg', t0, (r ++ if sg' x then [p] else []). split; [by apply susp_cons|]. split; [done|]. split; [done|]. split; [|split; [|split]].
      * simpl. rewrite T4. by rewrite !app_assoc.
      * simpl. intros [_ F]. rewrite (T5 F). by rewrite !app_assoc.
      * done.
      * apply T7.
  - destruct (v_done _ I) as [D1 D2]. simpl. split.
    + right. destruct D1 as [->|[l ->]]; eexists; [done|]. change (SDone :: l ++ [SDone]) with ((SDone :: l) ++ [SDone : slot S P]). by rewrite app_assoc.
    + rewrite filter_app, app_length, D2. rewrite filter_cons. simpl. assert (filter (λ x, is_done x = true) (map (λ c, SCall c p) (filter (λ c, c_sig c x = true) (a_conns s))) = []) as ->; [|done].
      clear. induction (filter (λ c, c_sig c x = true) (a_conns s)) as [|c0 l IH]; [done|]. simpl. rewrite filter_cons_False by done. apply IH.
  - simpl. rewrite not_elem_of_cons. destruct (v_gone _ I) as [G1 G2]. split; [intros H; split; [done|tauto]|tauto].
  - intros j. simpl. rewrite elem_of_cons. rewrite <- (v_dead _ I j). split; [intros [|]; done|by right].
Qed.

(** The next slot is popped: if its connection is gone, nothing happens; if the awaiter's slot is queued, an event is posted; for a device, a
    single shot is started. [l]: what remains of the emission. *)
Lemma emit_tail s x l : inv s -> a_emit s = x :: l ->
  (∀ c p, SCall c p ∈ l -> SCall c p ∈ a_emit s) ∧ (l = [] ∨ ∃ l', l = l' ++ [SDone]) ∧ (x ≠ SDone -> length (filter (λ x, is_done x = true) l) = length (filter (λ x, is_done x = true) (a_emit s))).
Proof.
  intros I E. rewrite E. split; [intros; by right|]. split.
  - destruct (v_done _ I) as [[D|[l' D]] _]; [congruence|]. rewrite E in D. destruct l' as [|y l']; simplify_eq/=; [by left|right; eauto].
  - intros N. destruct x; [|done]. by rewrite filter_cons_False.
Qed.

Lemma inv_skip s c p l : inv s -> a_emit s = SCall c p :: l -> c_id c ∉ ids s -> inv (set_emit l s).
Proof.
  intros I E N. destruct (emit_tail _ _ _ I E) as (E1 & E2 & E3). constructor; try apply I.
  - intros c' p' H. by apply (v_emit _ I c' p'), E1.
  - intros j id' k' dl' C. destruct (v_wait _ I _ _ _ _ C) as (M & w & sg' & t0 & r & T1 & T2 & T3 & T4 & T5 & T6 & T7).
    split; [done|]. exists w, sg', t0, r. do 5 (split; [done|]). split; [|done]. intros Y. rewrite (T6 Y), E. simpl. rewrite decide_False; [done|].
    intros X. apply N. by rewrite X.
  - split; [done|]. simpl. rewrite E3 by done. apply I.
Qed.

Lemma inv_done s l : inv s -> a_emit s = SDone :: l -> inv (log EEmitted (set_emit l s)).
Proof.
  intros I E. destruct (emit_tail _ _ _ I E) as (E1 & E2 & _). set (s' := log _ _).
  assert (∀ j id k' sg', owned s j id k' sg' -> owned s' j id k' sg') as OW by (intros; by eapply (owned_log s)).
  constructor.
  - intros c Hc. destruct (v_conn _ I c Hc) as [M O]. split; [done|by apply OW].
  - apply I.
  - apply I.
  - intros e He. destruct (v_shot _ I e He) as (M & (sg' & O) & D). split; [done|]. split; [exists sg'; by apply OW|done].
  - apply I.
  - intros c' p' H. by apply (v_emit _ I c' p'), E1.
  - intros j id' k' dl' C. destruct (v_wait _ I _ _ _ _ C) as (M & w & sg' & t0 & r & T1 & T2 & T3 & T4 & T5 & T6 & T7).
    split; [done|]. exists (EEmitted :: w), sg', t0, r. split; [by apply susp_cons|]. do 4 (split; [done|]). split; [|done]. intros Y. by rewrite (T6 Y), E.
  - split; [done|]. simpl. destruct (v_done _ I) as [_ D]. rewrite D, E. by rewrite filter_cons_True.
  - simpl. rewrite not_elem_of_cons. destruct (v_gone _ I) as [G1 G2]. split; [intros H; split; [done|tauto]|tauto].
  - intros j. simpl. rewrite elem_of_cons. rewrite <- (v_dead _ I j). split; [intros [|]; done|by right].
Qed.

Lemma inv_tick s : inv s -> inv (log ETick (Ast (a_obj s) (a_co s) (a_conns s) (a_posted s) (a_shots s) (a_emit s) (Datatypes.S (a_now s)) (a_next s) (a_ub s) (a_tr s))).
Proof.
  intros I. set (s' := log _ _). assert (∀ j id k' sg', owned s j id k' sg' -> owned s' j id k' sg') as OW by (intros; by eapply (owned_log s)).
  constructor.
  - intros c Hc. destruct (v_conn _ I c Hc) as [M O]. split; [done|by apply OW].
  - apply I.
  - apply I.
  - intros e He. destruct (v_shot _ I e He) as (M & (sg' & O) & D). split; [done|]. split; [exists sg'; by apply OW|done].
  - apply I.
  - apply I.
  - intros j id' k' dl' C. destruct (v_wait _ I _ _ _ _ C) as (M & w & sg' & t0 & r & T1 & T2 & T3 & T4 & T5 & T6 & T7).
    split; [done|]. exists (ETick :: w), sg', t0, r. split; [by apply susp_cons|]. split; [done|]. split; [simpl; lia|]. done.
  - apply I.
  - simpl. rewrite not_elem_of_cons. destruct (v_gone _ I) as [G1 G2]. split; [intros H; split; [done|tauto]|tauto].
  - intros j. simpl. rewrite elem_of_cons. rewrite <- (v_dead _ I j). split; [intros [|]; done|by right].
Qed.

Lemma filter_twice (l : list (slot S P)) : filter (λ x, is_done x = true) (filter (λ x, is_done x = true) l) = filter (λ x, is_done x = true) l.
Proof. induction l as [|[c p|] l IH]; [done|by rewrite filter_cons_False|]. by rewrite filter_cons_True, filter_cons_True, IH. Qed.

Lemma inv_kill s : inv s ->
  inv (log EGone (Ast false (a_co s) [] (a_posted s) (a_shots s) (filter (λ x, is_done x = true) (a_emit s)) (a_now s) (a_next s) (a_ub s) (a_tr s))).
Proof.
  intros I. set (s' := log _ _). assert (∀ j id k' sg', owned s j id k' sg' -> owned s' j id k' sg') as OW by (intros; by eapply (owned_log s)).
  constructor.
  - intros c Hc. by apply elem_of_nil in Hc.
  - constructor.
  - apply I.
  - intros e He. destruct (v_shot _ I e He) as (M & (sg' & O) & D). split; [done|]. split; [exists sg'; by apply OW|]. apply not_elem_of_nil.
  - apply I.
  - intros c p H. apply elem_of_list_filter in H as [H _]. done.
  - intros j id' k' dl' C. destruct (v_wait _ I _ _ _ _ C) as (M & w & sg' & t0 & r & T1 & T2 & T3 & T4 & T5 & T6 & T7).
    split; [done|]. exists (EGone :: w), sg', t0, r. split; [by apply susp_cons|]. do 4 (split; [done|]). split; [|done]. intros Y. by apply elem_of_nil in Y.
  - destruct (v_done _ I) as [D1 D2]. split.
    + simpl. destruct D1 as [->|[l ->]]; [by left|right]. rewrite filter_app. exists (filter (λ x, is_done x = true) l). done.
    + simpl. rewrite D2. by rewrite filter_twice.
  - simpl. rewrite not_elem_of_cons. split; [done|]. intros [? _]. done.
  - intros j. simpl. rewrite elem_of_cons. rewrite <- (v_dead _ I j). split; [intros [|]; done|by right].
Qed.

Lemma inv_post s c p l : inv s -> a_emit s = SCall c p :: l -> c ∈ a_conns s -> cuts (c_kind c) = true -> inv (set_posted (a_posted s ++ [(c_id c, c_co c, p)]) (set_emit l s)).
Proof.
  intros I E HC K. destruct (emit_tail _ _ _ I E) as (E1 & E2 & E3). destruct (v_conn _ I c HC) as [M O].
  assert (∃ dl, a_co s (c_co c) = CWait (c_id c) (c_kind c) dl) as [dl W]. { destruct O as [(dl & w & O & _)|(_ & O & _)]; [eauto|congruence]. }
  constructor; try apply I.
  - intros e [H|H%elem_of_list_singleton]%elem_of_app; [by apply (v_posted _ I)|]. subst e. split; [done|]. exists (c_kind c), dl. done.
  - intros c' p' H. by apply (v_emit _ I c' p'), E1.
  - intros j id' k' dl' C. destruct (v_wait _ I _ _ _ _ C) as (M' & w & sg' & t0 & r & T1 & T2 & T3 & T4 & T5 & T6 & T7).
    split; [done|]. exists w, sg', t0. simpl. destruct (decide (c_id c = id')) as [<-|N].
    + assert (c_id c ∈ ids s) as Y by (by apply elem_of_list_fmap_1). exists (pend (c_id c) l). rewrite (T6 Y) in T4, T5. rewrite E in T4, T5. simpl in T4, T5. rewrite decide_True in T4, T5 by done.
      rewrite for_id_app. simpl. rewrite decide_True by done. rewrite <- !app_assoc. simpl. done.
    + exists r. rewrite for_id_app. simpl. rewrite decide_False by done. rewrite app_nil_r. do 5 (split; [done|]). split; [|done]. intros Y. rewrite (T6 Y), E. simpl. by rewrite decide_False.
  - split; [done|]. simpl. rewrite E3 by done. apply I.
Qed.

Lemma inv_fire s c p l dl : inv s -> a_emit s = SCall c p :: l -> c ∈ a_conns s -> c_kind c = KDevice -> a_co s (c_co c) = CWait (c_id c) KDevice dl ->
  inv (Ast (a_obj s) (a_co s) (others (c_id c) c_id (a_conns s)) (a_posted s) (a_shots s ++ [(c_id c, c_co c, p)]) l (a_now s) (a_next s) (a_ub s) (a_tr s)).
Proof.
  intros I E HC K W. destruct (emit_tail _ _ _ I E) as (E1 & E2 & E3). destruct (v_conn _ I c HC) as [M O]. assert (c_id c ∈ ids s) as Y by (by apply elem_of_list_fmap_1).
  assert (for_id (c_id c) (a_shots s) = [] ∧ c_id c ∉ map pid (a_shots s)) as [NS NS'].
  { assert (c_id c ∉ map pid (a_shots s)) as X. { intros (e & X & He)%elem_of_list_fmap. destruct (v_shot _ I e He) as (_ & _ & D). apply D. unfold pid in X. by rewrite <- X. }
    split; [|done]. apply for_id_nil. intros e He X2. apply X. rewrite <- X2. by apply elem_of_list_fmap_1. }
  constructor; try apply I.
  - intros c' [H _]%conn_others. by apply (v_conn _ I).
  - apply nodup_others, I.
  - intros e [H|H%elem_of_list_singleton]%elem_of_app.
    + destruct (v_shot _ I e H) as (M' & O' & D). do 2 (split; [done|]). unfold ids. simpl. rewrite ids_others. by intros [? _].
    + subst e. simpl. split; [done|]. split; [exists (c_sig c); rewrite <- K; done|]. unfold ids. simpl. rewrite ids_others. by intros [_ ?].
  - simpl. rewrite map_app. apply NoDup_app. split; [apply I|]. split; [|apply NoDup_singleton]. intros x Hx X%elem_of_list_singleton. subst x. done.
  - intros c' p' H. destruct (v_emit _ I c' p' (E1 _ _ H)) as (M1 & M2 & M3). split; [done|]. split; [|done]. intros c2 [H2 _]%conn_others. by apply M2.
  - intros j id' k' dl' C. change (a_co s j = CWait id' k' dl') in C. destruct (v_wait _ I _ _ _ _ C) as (M' & w & sg' & t0 & r & T1 & T2 & T3 & T4 & T5 & T6 & T7).
    split; [done|]. exists w, sg', t0. simpl. destruct (decide (c_id c = id')) as [<-|N].
    + destruct M as [_ M]. pose proof (M _ _ _ C) as X. subst j. rewrite W in C. injection C as <- <-.
      assert (for_id (c_id c) (a_posted s) = []) as NP.
      { apply for_id_nil. intros e He X. destruct (v_posted _ I e He) as [_ (k' & dl' & C & D)]. destruct M' as [_ M']. unfold pid in X. rewrite X in C. pose proof (M' _ _ _ C) as X2. rewrite X2, W in C. simplify_eq. }
      exists (pend (c_id c) l). rewrite (T6 Y) in T4, T5. rewrite E, NS, NP in T4, T5. simpl in T4, T5. rewrite decide_True in T4, T5 by done.
      rewrite for_id_app, NS, NP. simpl. rewrite decide_True by done. simpl. do 5 (split; [done|]). split; [|intros _; by right]. done.
    + exists r. rewrite for_id_app. simpl. rewrite decide_False by done. rewrite app_nil_r. do 5 (split; [done|]). unfold ids. simpl. rewrite ids_others. split.
      * intros [Y' _]. rewrite (T6 Y'), E. simpl. by rewrite decide_False.
      * intros H. destruct (T7 H) as [X|X]; [left|by right]. done.
  - split; [done|]. simpl. rewrite E3 by done. apply I.
Qed.

Lemma used_owned s i id k sg f s' : owned s i id k sg -> a_tr f = a_tr s -> (∃ dl, a_co s i = CWait id k dl ∧ used i id s s' = s') ∨ (used i id s s' = bad i s ∧ cuts k = false ∧ destroyed_in i k sg (a_tr f)).
Proof.
  intros [(dl & w & W & _)|(D & K & O)] T; unfold used.
  - rewrite W. left. exists dl. split; [done|]. by rewrite decide_True.
  - rewrite D, T. by right.
Qed.

Lemma no_shots s i id k dl : inv s -> a_co s i = CWait id k dl -> k ≠ KDevice -> ∀ e, e ∈ a_shots s -> pid e ≠ id.
Proof.
  intros I W N e He X. destruct (v_shot _ I e He) as ([_ M] & (sg & O) & _). unfold pid in X. rewrite X in M, O. pose proof (M _ _ _ W) as Y. rewrite <- Y in O.
  destruct O as [(? & ? & O & _)|(O & _)]; rewrite W in O; simplify_eq.
Qed.
Lemma no_posted s i id k dl : inv s -> a_co s i = CWait id k dl -> cuts k = false -> ∀ e, e ∈ a_posted s -> pid e ≠ id.
Proof.
  intros I W N e He X. destruct (v_posted _ I e He) as ([_ M] & k' & dl' & O & K). unfold pid in X. rewrite X in M, O. pose proof (M _ _ _ W) as Y. rewrite <- Y in O. rewrite W in O. injection O as -> ->. congruence.
Qed.

Definition useafter (s s' : ast S P) : Prop := ∃ i k sg, a_tr s' = EUse i :: a_tr s ∧ cuts k = false ∧ destroyed_in i k sg (a_tr s).

Lemma step_inv s a s' : inv s -> a_ub s = false -> perform a s = Some s' -> (a_ub s' = false ∧ inv s') ∨ (a_ub s' = true ∧ useafter s s').
Proof.
  intros I U. unfold perform. rewrite U. destruct a as [i k sg|i|x p| | | |i| | ].
  - destruct (a_obj s) eqn:OB; [|done]. destruct (a_co s i) eqn:W; [|done|done]. intros [= <-]. left. split; [done|]. rewrite <- U. by apply inv_await.
  - destruct (a_co s i) as [|id k dl|] eqn:W; [| |done]; intros [= <-]; left; (split; [done|]); rewrite <- U.
    + apply inv_destroy; [done|congruence| |done|apply I| |done].
      * intros c Hc. split; [done|]. intros dl k. congruence.
      * intros e He. split; [done|]. intros X. destruct (v_posted _ I e He) as (_ & k' & dl' & C & _). rewrite X in C. congruence.
    + destruct (v_wait _ I _ _ _ _ W) as [[_ Mi] _]. apply inv_destroy; [done|congruence| | | | |].
      * intros c Hc. split; [destruct (cuts k); [by apply conn_others in Hc as [? _]|done]|]. intros dl' k'. rewrite W. intros X. destruct (cuts k) eqn:K; [apply conn_others in Hc as [_ N]|]; congruence.
      * intros c Hc N. destruct (cuts k); [|done]. apply conn_others. split; [done|]. intros X. destruct (v_conn _ I c Hc) as [[_ Mc] _]. rewrite X in Mc. apply N. symmetry. by eapply Mc.
      * destruct (cuts k); [apply nodup_others|]; apply I.
      * intros e [N He]%elem_of_list_filter. split; [done|]. intros X. destruct (v_posted _ I e He) as (_ & k' & dl' & C & _). rewrite X, W in C. injection C as C _ _. unfold pid in N. congruence.
      * intros j id' k' dl' Nj C. apply for_id_others. intros ->. by apply Nj, (Mi _ _ _ C).
  - destruct (a_obj s) eqn:OB; [|done]. intros [= <-]. left. split; [done|]. by apply inv_emit.
  - destruct (a_emit s) as [|[c p|] l] eqn:E; [done| |].
    2:{ intros [= <-]. left. split; [done|]. by apply inv_done. }
    intros [= <-]. destruct (decide (c_id c ∈ map c_id (a_conns s))) as [Y|Y].
    2:{ left. split; [done|]. by eapply inv_skip. }
    assert (c ∈ a_conns s) as HC. { apply elem_of_list_fmap in Y as (c' & X & HC). assert (SCall c p ∈ a_emit s) as He by (rewrite E; left). destruct (v_emit _ I c p He) as (_ & M & _). by rewrite <- (M c'). }
    destruct (v_conn _ I c HC) as [M O]. destruct (emit_tail _ _ _ I E) as (E1 & E2 & E3). unfold call. destruct (c_kind c) as [to| | |] eqn:K.
    + left. split; [done|]. apply (inv_post s c p l); [done|done|done|by rewrite K].
    + left. split; [done|]. apply (inv_post s c p l); [done|done|done|by rewrite K].
    + edestruct (used_owned (set_emit l s) (c_co c) (c_id c) KTimer (c_sig c) s) as [(dl & W & ->)|(-> & Kc & D)]; [by apply (owned_same s)|done| |].
      * left. split; [done|]. apply (inv_resume s (c_co c) (c_id c) KTimer dl); try done; [intros e He; split; [done|by apply (no_shots s (c_co c) (c_id c) KTimer dl)]|apply I| |by apply E3].
        intros id' N. rewrite E. simpl. by rewrite decide_False.
      * right. split; [done|]. exists (c_co c), KTimer, (c_sig c). done.
    + edestruct (used_owned (set_emit l s) (c_co c) (c_id c) KDevice (c_sig c) s) as [(dl & W & ->)|(-> & Kc & D)]; [by apply (owned_same s)|done| |].
      * left. split; [done|]. by apply (inv_fire s c p l dl).
      * right. split; [done|]. exists (c_co c), KDevice, (c_sig c). done.
  - destruct (a_posted s) as [|[[id i] p] l] eqn:E; [done|]. intros [= <-]. assert ((id, i, p) ∈ a_posted s) as He by (rewrite E; left).
    destruct (v_posted _ I _ He) as (M & k & dl & W & K). simpl in *. unfold used. simpl. rewrite W, decide_True by done. left. split; [done|].
    destruct (v_done _ I) as [D1 D2]. apply (inv_resume s i id k dl); try done.
    + intros e H. rewrite E. by right.
    + intros id' N. rewrite E. simpl. unfold pid at 2. simpl. by rewrite decide_False.
    + intros e H. split; [done|]. eapply no_shots; [done|done| |done]. by intros ->.
    + apply I.
  - destruct (a_shots s) as [|[[id i] p] l] eqn:E; [done|]. intros [= <-]. assert ((id, i, p) ∈ a_shots s) as He by (rewrite E; left).
    destruct (v_shot _ I _ He) as (M & (sg & O) & K). simpl in *. pose proof (v_shots _ I) as N. rewrite E in N. simpl in N. apply NoDup_cons in N as [N1 N2].
    edestruct (used_owned (set_shots l s) i id KDevice sg s) as [(dl & W & ->)|(-> & Kc & D)]; [by apply (owned_same s)|done| |].
    + left. split; [done|]. destruct (v_done _ I) as [D1 D2]. apply (inv_resume s i id KDevice dl); try done.
      * intros e H. rewrite E. split; [by right|]. intros X. apply N1. unfold pid at 1. simpl. rewrite <- X. by apply elem_of_list_fmap_1.
      * intros id' N. rewrite E. simpl. unfold pid at 2. simpl. by rewrite decide_False.
    + right. split; [done|]. exists i, KDevice, sg. done.
  - destruct (a_obj s) eqn:OB; [|done]. destruct (a_co s i) as [|id k [d|]|] eqn:W; [done| |done|done]. destruct (decide (d ≤ a_now s)); [|done]. intros [= <-]. left. split; [done|].
    destruct (v_done _ I) as [D1 D2]. destruct (v_wait _ I _ _ _ _ W) as (_ & w & sg & t0 & r & _ & T2 & _).
    pose proof (inv_resume s i id k (Some d) None (a_posted s) (a_shots s) (a_emit s) I W) as H. unfold resume in *. simpl in *. rewrite U in H |- *.
    apply H; try done; [|apply I]. intros e He. split; [done|]. eapply no_shots; [done|done| |done]. intros ->. done.
  - intros [= <-]. left. split; [done|]. rewrite <- U. by apply inv_tick.
  - destruct (a_obj s) eqn:OB; [|done]. intros [= <-]. left. split; [done|]. pose proof (inv_kill s I) as H. by rewrite U in H.
Qed.

Lemma inv_0 : inv (aw0 : ast S P).
Proof.
  constructor; simpl; try (by intros ? H%elem_of_nil); try done.
  - constructor.
  - constructor.
  - intros c p H. by apply elem_of_nil in H.
  - split; [by left|done].
  - split; [intros _; apply not_elem_of_nil|done].
  - intros i. split; [|done]. intros H. by apply elem_of_nil in H.
Qed.
Lemma reach_inv s : areach s -> a_ub s = false -> inv s.
Proof.
  intros R. induction R as [|s s' a R IH ST]; intros U; [apply inv_0|].
  destruct (a_ub s) eqn:U0; [unfold perform in ST; by rewrite U0 in ST|]. destruct (step_inv _ _ _ (IH ltac:(done)) U0 ST) as [[_ ?]|[? _]]; [done|congruence].
Qed.
Lemma perform_ub a s s' : perform a s = Some s' -> a_ub s = false.
Proof. unfold perform. by destruct (a_ub s). Qed.
Lemma reach_goes s s' : areach s -> agoes s s' -> areach s'.
Proof. intros R G. revert R. induction G as [s|s s' s'' a G IH ST]; [done|]. intros R. eapply areach_S; [by apply IH|exact ST]. Qed.

(** Every step logs at most one event. *)
Lemma used_tr i id s f : (a_tr f = a_tr s ∨ ∃ e, a_tr f = e :: a_tr s) -> a_tr (used i id s f) = a_tr s ∨ ∃ e, a_tr (used i id s f) = e :: a_tr s.
Proof. intros H. unfold used. destruct (a_co s i); [|destruct decide|]; try done; right; by eexists. Qed.
Lemma step_tr a s s' : perform a s = Some s' -> a_tr s' = a_tr s ∨ ∃ e, a_tr s' = e :: a_tr s.
Proof.
  unfold perform. intros H. repeat (case_match; simplify_eq/=); try (by left); try (right; by eexists).
  - unfold call. case_match; try (by left); apply (used_tr _ _ (set_emit _ _)); simpl; (by left) || (right; by eexists).
  - apply (used_tr _ _ (set_posted _ _)); simpl. right; by eexists.
  - apply (used_tr _ _ (set_shots _ _)); simpl. right; by eexists.
Qed.
Lemma cut s e w t : areach s -> a_tr s = w ++ e :: t -> ∃ a s0 s1, areach s0 ∧ perform a s0 = Some s1 ∧ a_tr s0 = t ∧ a_tr s1 = e :: t ∧ agoes s1 s.
Proof.
  intros R. revert w. induction R as [|s s' a R IH ST]; intros w T.
  - destruct w; done.
  - destruct (step_tr _ _ _ ST) as [E|[e' E]].
    + rewrite E in T. destruct (IH _ T) as (a' & s0 & s1 & ? & ? & ? & ? & ?). exists a', s0, s1. do 4 (split; [done|]). eapply agoes_S; [done|exact ST].
    + destruct w as [|e2 w]; rewrite E in T; simpl in T; injection T as -> T.
      * exists a, s, s'. rewrite T in E. do 4 (split; [done|]). constructor.
      * destruct (IH _ T) as (a' & s0 & s1 & ? & ? & ? & ? & ?). exists a', s0, s1. do 4 (split; [done|]). eapply agoes_S; [done|exact ST].
Qed.
Lemma goes_tr s s' : agoes s s' -> ∃ w, a_tr s' = w ++ a_tr s.
Proof.
  induction 1 as [s|s s' s'' a G [w IH] ST]; [by exists []|]. destruct (step_tr _ _ _ ST) as [->|[e ->]]; [by exists w|]. exists (e :: w). by rewrite IH.
Qed.
End facts.
