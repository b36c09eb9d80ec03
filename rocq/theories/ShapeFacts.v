(** * Facts about results of signals. *)
From stdpp Require Import list option strings.
From Coq Require Import Ascii String.
From Verif Require Import ShapeModel.
Open Scope list_scope.
Local Notation length := List.length (only parsing).

Lemma rfind_none c l : c ∉ l -> rfind c l = None.
Proof.
  induction l as [|x l IH]; intros H; [done|]. cbn. rewrite not_elem_of_cons in H. destruct H as [H1 H2]. rewrite (IH H2).
  by rewrite decide_False by congruence.
Qed.
Lemma rfind_last c l l' : c ∉ l' -> rfind c (l ++ c :: l') = Some (length l).
Proof.
  intros H. induction l as [|x l IH]; cbn; [by rewrite rfind_none, decide_True|]. by rewrite IH.
Qed.

Lemma rfind_some c l n : rfind c l = Some n -> ∃ l1 l2, l = l1 ++ c :: l2 ∧ length l1 = n ∧ c ∉ l2.
Proof.
  revert n. induction l as [|x l IH]; intros n; cbn; [done|]. destruct (rfind c l) as [m|] eqn:E.
  - intros [= <-]. destruct (IH _ eq_refl) as (l1 & l2 & -> & <- & ?). by exists (x :: l1), l2.
  - destruct (decide (x = c)) as [->|]; [|done]. intros [= <-]. exists [], l. split; [done|]. split; [done|].
    clear -E. induction l as [|y l IH]; [by intros ?%elem_of_nil|]. cbn in E. destruct (rfind c l); [done|]. destruct (decide (y = c)); [done|]. by intros [?|?%IH]%elem_of_cons.
Qed.

(** Comparing [n] characters before [length l] with the last [n] of the pattern. *)
Lemma same_tail_spec l rest : length qprivatesignal ≤ length l ->
  same_tail (l ++ rest) (length l) 1 (length qprivatesignal) = true <-> ∃ p, l = p ++ qprivatesignal.
Proof.
  intros Hlen.
  assert (∀ n pos, 1 ≤ pos -> pos + n = S (length qprivatesignal) ->
    same_tail (l ++ rest) (length l) pos n = true <->
    ∀ k, pos ≤ k -> k ≤ length qprivatesignal -> l !! (length l - k) = qprivatesignal !! (length qprivatesignal - k)) as H.
  { induction n as [|n IH]; intros pos Hp Hn; cbn [same_tail].
    - split; [|done]. intros _ k H1 H2. lia.
    - rewrite lookup_app_l by lia. destruct (decide _) as [Hd|Hd].
      + rewrite IH by lia. split; [|intros H k H1 H2; apply H; lia]. intros H k H1 H2. destruct (decide (k = pos)) as [->|]; [done|]. apply H; lia.
      + split; [done|]. intros H. destruct Hd. apply H; lia. }
  rewrite H by lia. clear H. split.
  - intros H. exists (take (length l - length qprivatesignal) l). rewrite <- (take_drop (length l - length qprivatesignal) l) at 1. f_equal.
    apply list_eq. intros i. rewrite lookup_drop. destruct (decide (i < length qprivatesignal)) as [Hi|Hi].
    + specialize (H (length qprivatesignal - i) ltac:(lia) ltac:(lia)).
      replace (length l - (length qprivatesignal - i)) with (length l - length qprivatesignal + i) in H by lia.
      by replace (length qprivatesignal - (length qprivatesignal - i)) with i in H by lia.
    + rewrite !lookup_ge_None_2; [done|lia|lia].
  - intros [p Hp]. subst l. intros k H1 H2. rewrite app_length in *. rewrite lookup_app_r by lia. f_equal. lia.
Qed.

Lemma suffix_cut (p0 : text) c (type : text) : c ∉ qprivatesignal ->
  (∃ p, (p0 ++ [c]) ++ type = p ++ qprivatesignal) <-> ∃ p, type = p ++ qprivatesignal.
Proof.
  intros Hc. split; [|intros [p ->]; exists ((p0 ++ [c]) ++ p); by rewrite (assoc_L (++))].
  intros [p Hp]. destruct (decide (length qprivatesignal ≤ length type)) as [Hle|Hgt].
  - exists (take (length type - length qprivatesignal) type).
    rewrite <- (take_drop (length type - length qprivatesignal) type) at 1. f_equal.
    assert (drop (length (p0 ++ [c]) + (length type - length qprivatesignal)) ((p0 ++ [c]) ++ type) = drop (length (p0 ++ [c]) + (length type - length qprivatesignal)) (p ++ qprivatesignal)) as H by by rewrite Hp.
    rewrite drop_app_ge in H by lia. replace (length (p0 ++ [c]) + (length type - length qprivatesignal) - length (p0 ++ [c])) with (length type - length qprivatesignal) in H by lia.
    rewrite H. apply (f_equal length) in Hp. rewrite !app_length in Hp.
    rewrite app_length, drop_app_ge by (cbn in *; lia).
    replace (length p0 + length [c] + (length type - length qprivatesignal) - length p) with 0 by (cbn in *; lia). done.
  - exfalso. apply Hc. apply elem_of_list_lookup. exists (length qprivatesignal - S (length type)).
    assert (((p0 ++ [c]) ++ type) !! length p0 = Some c) as H by (rewrite <- (assoc_L (++)), lookup_app_r, Nat.sub_diag by done; done).
    rewrite Hp in H. apply (f_equal length) in Hp. rewrite !app_length in Hp. cbn [length] in Hp. rewrite lookup_app_r in H by lia. rewrite <- H. f_equal. lia.
Qed.

Lemma name_spec (pre : text) c (type : text) (e : ascii) suf comp :
  (match comp with Msvc => ">"%char | _ => "]"%char end) = e -> e ∉ suf -> c ∉ qprivatesignal -> length qprivatesignal ≤ length (pre ++ [c]) ->
  get_value comp ((pre ++ [c]) ++ type ++ e :: suf) = true <-> ∃ p, type = p ++ qprivatesignal.
Proof.
  intros He Hs Hc Hl. unfold get_value. rewrite He, (assoc_L (++)), rfind_last by done.
  destruct (_ <? _)%nat eqn:E.
  - apply Nat.ltb_lt in E. rewrite app_length in E. lia.
  - apply Nat.ltb_ge in E. rewrite same_tail_spec by done. by apply suffix_cut.
Qed.
Lemma space_out : " "%char ∉ qprivatesignal /\ "<"%char ∉ qprivatesignal.
Proof. unfold qprivatesignal. split; vm_compute; intros H; repeat (apply elem_of_cons in H as [?|H]; [done|]); by apply elem_of_nil in H. Qed.
Lemma suf_out : ">"%char ∉ T "::functionName(void)".
Proof. vm_compute; intros H; repeat (apply elem_of_cons in H as [?|H]; [done|]); by apply elem_of_nil in H. Qed.

Lemma is_private_spec c type : is_private c type = true <-> ∃ p, type = p ++ T "QPrivateSignal".
Proof.
  unfold is_private. destruct c; cbn [function_name].
  - assert (T "static auto QCoro::detail::is_qprivatesignal<" ++ type ++ T ">::functionName() [T = " ++ type ++ T "]" =
      ((T "static auto QCoro::detail::is_qprivatesignal<" ++ type ++ T ">::functionName() [T =") ++ [" "%char]) ++ type ++ "]"%char :: []) as ->.
    { by rewrite <- !(assoc_L (++)). }
    apply name_spec; [done|by intros ?%elem_of_nil|apply space_out|]. rewrite !app_length. cbn. lia.
  - apply (name_spec (T "static consteval auto QCoro::detail::is_qprivatesignal<T>::functionName() [with T =") " "%char type "]"%char [] Gcc);
      [done|by intros ?%elem_of_nil|apply space_out|cbn; lia].
  - apply (name_spec (T "const char *__cdecl QCoro::detail::is_qprivatesignal") "<"%char type ">"%char (T "::functionName(void)") Msvc);
      [done|apply suf_out|apply space_out|cbn; lia].
Qed.
Lemma is_private_dec c type : (is_private c type = true ∧ ∃ p, type = p ++ T "QPrivateSignal") ∨ (is_private c type = false ∧ ¬ ∃ p, type = p ++ T "QPrivateSignal").
Proof. rewrite <- (is_private_spec c type). destruct (is_private c type); [by left|by right]. Qed.

Lemma filtered_spec c tuple args : filtered_tuple c tuple args = tuple ++ filter (λ t, is_private c t = false) args.
Proof.
  revert tuple. induction args as [|a args IH]; intros tuple; cbn [filtered_tuple]; [by rewrite filter_nil, (right_id_L [] (++))|].
  destruct (is_private c a) eqn:E.
  - rewrite IH, filter_cons_False; [done|]. by rewrite E.
  - rewrite IH, filter_cons_True by done. by rewrite <- (assoc_L (++)).
Qed.
Lemma filter_all {A} (P : A -> Prop) `{∀ x, Decision (P x)} (l : list A) : (∀ x, x ∈ l -> P x) -> filter P l = l.
Proof.
  intros Hl. induction l as [|x l IH]; [done|]. rewrite filter_cons_True by (apply Hl; left). f_equal. apply IH. intros y Hy. apply Hl. by right.
Qed.

Section store.
Context {V : Type}.
Notation arg := (text * V)%type.
Implicit Types args l : list arg.
Definition priv (a : arg) : Prop := ∃ p, a.1 = p ++ T "QPrivateSignal".
Definition moc (args : list arg) : Prop := ∀ l a b l', args = l ++ a :: b :: l' -> ¬ priv a.
Definition wrap (l : list arg) : result := match l with [a] => RBare a | _ => RTuple l end.

Lemma priv_spec c (a : arg) : priv a <-> is_private c a.1 = true.
Proof. symmetry. apply is_private_spec. Qed.
Lemma not_priv c (a : arg) : ¬ priv a <-> is_private c a.1 = false.
Proof. rewrite (priv_spec c). by destruct (is_private c a.1). Qed.

Lemma moc_snoc l a : moc (l ++ [a]) <-> ∀ x, x ∈ l -> ¬ priv x.
Proof.
  split.
  - intros H x [l1 [l2 ->]]%elem_of_list_split. destruct l2 as [|b l2].
    + apply (H l1 x a []). by rewrite <- (assoc_L (++)).
    + apply (H l1 x b (l2 ++ [a])). by rewrite <- (assoc_L (++)).
  - intros H l1 x b l2 He. apply H.
    destruct l2 as [|z l2 _] using rev_ind.
    + assert (l ++ [a] = (l1 ++ [x]) ++ [b]) as Hx by by rewrite He, <- (assoc_L (++)).
      apply app_inj_tail in Hx as [-> _]. apply elem_of_app. right. left.
    + assert (l ++ [a] = (l1 ++ x :: b :: l2) ++ [z]) as Hx by by rewrite He, <- (assoc_L (++)).
      apply app_inj_tail in Hx as [-> _]. apply elem_of_app. right. left.
Qed.
Lemma store_snoc c l a : store_result c (l ++ [a]) = if is_private c a.1 then l else l ++ [a].
Proof.
  unfold store_result. rewrite last_snoc. destruct (is_private c a.1); [|done]. rewrite app_length. cbn.
  replace (length l + 1 - 1) with (length l) by lia. by rewrite take_app.
Qed.
Lemma emplace_wrap l : emplace (result_type_from_tuple l.*1) l = Some (wrap l).
Proof. destruct l as [|a [|b l]]; cbn; [done|by rewrite decide_True|]. by rewrite decide_True. Qed.
Lemma filter_ok c l : (∀ x, x ∈ l -> ¬ priv x) -> filter (λ t, is_private c t = false) l.*1 = l.*1.
Proof. intros H. apply filter_all. intros t (x & -> & Hx)%elem_of_list_fmap. by apply not_priv, H. Qed.

Lemma stored_keeps c l : (∀ x, x ∈ l -> ¬ priv x) -> stored c l = Some (wrap l).
Proof.
  intros H. unfold stored, result_type, args_tuple. rewrite filtered_spec, filter_ok by done. cbn. rewrite <- emplace_wrap. f_equal.
  destruct l as [|a l _] using rev_ind; [done|]. rewrite store_snoc. rewrite (proj1 (not_priv c a)); [done|]. apply H. apply elem_of_app. right. left.
Qed.
Lemma stored_drop c l a : (∀ x, x ∈ l -> ¬ priv x) -> priv a -> stored c (l ++ [a]) = Some (wrap l).
Proof.
  intros H Ha. apply (priv_spec c) in Ha. unfold stored, result_type, args_tuple. rewrite filtered_spec, fmap_app, filter_app, filter_ok by done. rewrite (left_id_L [] (++)). change ([a].*1) with [a.1].
  rewrite filter_cons_False by (rewrite Ha; done). rewrite filter_nil, (right_id_L [] (++)), <- emplace_wrap, store_snoc, Ha. done.
Qed.
Lemma stored_moc c args : moc args ->
  ∃ l, stored c args = Some (wrap l) ∧
    ((args = l ∧ ∀ a, a ∈ l -> ¬ priv a) ∨ ∃ a, args = l ++ [a] ∧ priv a ∧ ∀ a, a ∈ l -> ¬ priv a).
Proof.
  intros H. destruct args as [|a l _] using rev_ind.
  - exists []. split; [by apply stored_keeps; intros ? ?%elem_of_nil|]. left. split; [done|]. by intros ? ?%elem_of_nil.
  - rewrite moc_snoc in H. destruct (is_private c a.1) eqn:E.
    + exists l. apply (priv_spec c a) in E. split; [by apply stored_drop|]. right. by exists a.
    + exists (l ++ [a]). apply (not_priv c a) in E. assert (∀ x, x ∈ l ++ [a] -> ¬ priv x) as H'.
      { intros x [?| ->%elem_of_list_singleton]%elem_of_app; [by apply H|done]. }
      split; [by apply stored_keeps|]. by left.
Qed.
Lemma stored_drops c p (v : V) l : (∀ x, x ∈ l -> ¬ priv x) -> stored c (l ++ [(p ++ T "QPrivateSignal", v)]) = Some (wrap l).
Proof. intros H. apply stored_drop; [done|]. by exists p. Qed.
Lemma emplace_len ts l r : emplace (result_type_from_tuple ts) l = Some r -> length l = length ts.
Proof.
  unfold emplace, result_type_from_tuple. destruct ts as [|t [|t' ts]].
  - destruct (decide _) as [H|]; [|done]. intros _. apply (f_equal length) in H. by rewrite fmap_length in H.
  - by destruct l as [|a [|b l]].
  - destruct (decide _) as [H|]; [|done]. intros _. apply (f_equal length) in H. by rewrite fmap_length in H.
Qed.
Lemma filter_lt c (l : list text) : (∃ x, x ∈ l ∧ is_private c x = true) -> length (filter (λ t, is_private c t = false) l) < length l.
Proof.
  intros (x & Hx & Hp). induction l as [|y l IH]; [by apply elem_of_nil in Hx|]. rewrite filter_cons.
  apply elem_of_cons in Hx as [<-|Hx].
  - rewrite decide_False by (rewrite Hp; done). pose proof (filter_length (λ t, is_private c t = false) l). cbn. lia.
  - specialize (IH Hx). destruct (decide _); cbn; lia.
Qed.
Lemma stored_other c args : ¬ moc args -> stored c args = None.
Proof.
  intros H. destruct (stored c args) as [r|] eqn:E; [|done]. destruct H. unfold stored, result_type, args_tuple in E.
  rewrite filtered_spec, (left_id_L [] (++)) in E. apply emplace_len in E.
  destruct args as [|a l _] using rev_ind; [intros [|? ?]; done|]. rewrite moc_snoc. intros x Hx Hpx. apply (priv_spec c) in Hpx.
  assert (length (filter (λ t, is_private c t = false) l.*1) < length l) as Hlt.
  { rewrite <- (fmap_length fst l). apply filter_lt. exists x.1. split; [|done]. by apply elem_of_list_fmap_1. }
  rewrite store_snoc, fmap_app, filter_app, app_length in E. change ([a].*1) with [a.1] in E.
  destruct (is_private c a.1) eqn:Ea.
  - rewrite filter_cons_False in E by (rewrite Ea; done). rewrite filter_nil in E. cbn in E. lia.
  - rewrite filter_cons_True in E by done. rewrite filter_nil, app_length in E. cbn in E. lia.
Qed.
End store.
