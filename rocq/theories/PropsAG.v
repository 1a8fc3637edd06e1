(** C120: where the errors of the combinators point. *)
From Coq Require Import Sorting.Sorted.
From Verif Require Import Base Core Comb Closure.
Set Implicit Arguments.
Local Open Scope string_scope. Local Open Scope nat_scope. Local Open Scope list_scope.

(** ** The combinators, with the errors a program may pass to failed()
    The closure of Closure.v; [user] holds of the errors given to failed / failed_lazy, [leaf] is as there. *)
Inductive reports {I : Type} (leaf : forall A, parser I A -> Prop) (user : perror I -> Prop)
  : forall A, parser I A -> Prop :=
| R_leaf : forall A (p : parser I A), leaf A p -> reports leaf user p
| R_diverge : forall A, reports leaf user (@p_diverge I A)
| R_successful : forall A (v : A), reports leaf user (p_successful v)
| R_successful_lazy : forall A (v : unit -> A), reports leaf user (p_successful_lazy v)
| R_failed : forall A e c, user e -> reports leaf user (@p_failed I A e c)
| R_failed_lazy : forall A f, user (fst (f tt)) -> reports leaf user (@p_failed_lazy I A f)
| R_filter : forall A (p : parser I A) f, reports leaf user p -> reports leaf user (p_filter p f)
| R_flat_map : forall A B (p : parser I A) (f : A -> parser I B),
    reports leaf user p -> (forall a, reports leaf user (f a)) -> reports leaf user (p_flat_map p f)
| R_map : forall A B (p : parser I A) (f : A -> B), reports leaf user p -> reports leaf user (p_map p f)
| R_map_panic : forall A B (p : parser I A) (f : A -> option B),
    reports leaf user p -> reports leaf user (p_map_panic p f)
| R_exists : forall A (p : parser I A), reports leaf user p -> reports leaf user (p_exists p)
| R_not : forall A (p : parser I A), reports leaf user p -> reports leaf user (p_not p)
| R_or : forall A (p q : parser I A),
    reports leaf user p -> reports leaf user q -> reports leaf user (p_or p q)
| R_and : forall A B (p : parser I A) (q : parser I B),
    reports leaf user p -> reports leaf user q -> reports leaf user (p_and p q)
| R_attempt : forall A (p : parser I A), reports leaf user p -> reports leaf user (p_attempt p)
| R_rest_left1 : forall A (p : parser I A) op (x : A),
    reports leaf user p -> reports leaf user op -> reports leaf user (p_rest_left1 p op x)
| R_repeat_sep : forall A B (p : parser I A) r (s : parser I B),
    reports leaf user p -> reports leaf user s -> reports leaf user (p_repeat_sep p r (Some s))
| R_repeat_nosep : forall A B (p : parser I A) r,
    reports leaf user p -> reports leaf user (p_repeat_sep p r (None : option (parser I B)))
| R_seq : forall eqb s, reports leaf user (p_seq eqb s)
| R_tag : forall eqb s, reports leaf user (p_tag_by eqb s)
| R_tag_no_case : forall eqb s, reports leaf user (p_tag_no_case_by eqb s)
| R_elm_pred_ref : forall f, reports leaf user (p_elm_pred_ref f)
| R_elm_ref_of : forall f, reports leaf user (p_elm_ref_of f)
| R_none_ref_of : forall f, reports leaf user (p_none_ref_of f)
| R_take : forall n, reports leaf user (p_take n)
| R_take_while0 : forall f, reports leaf user (p_take_while0 f)
| R_take_while1 : forall f, reports leaf user (p_take_while1 f)
| R_take_while_n_m : forall n m f, reports leaf user (p_take_while_n_m n m f)
| R_take_till0 : forall f, reports leaf user (p_take_till0 f)
| R_take_till1 : forall f, reports leaf user (p_take_till1 f)
| R_collect : forall A (p : parser I A), reports leaf user p -> reports leaf user (p_collect p)
| R_map_res : forall A B E (p : parser I A) (f : A -> B + E),
    reports leaf user p -> reports leaf user (p_map_res p f)
| R_map_opt : forall A B (p : parser I A) (f : A -> option B),
    reports leaf user p -> reports leaf user (p_map_opt p f)
| R_discard : forall A (p : parser I A), reports leaf user p -> reports leaf user (p_discard p)
| R_lazy : forall A (f : unit -> parser I A), reports leaf user (f tt) -> reports leaf user (p_lazy f)
| R_log_map : forall A B (p : parser I A) (f : outcome I A -> B),
    reports leaf user p -> reports leaf user (p_log_map p f)
| R_name : forall A (p : parser I A) nm, reports leaf user p -> reports leaf user (p_name p nm)
| R_expect : forall A (p : parser I A) nm, reports leaf user p -> reports leaf user (p_expect p nm)
| R_last_offset : forall A (p : parser I A),
    reports leaf user p -> reports leaf user (p_last_offset p)
| R_next_offset : forall A (p : parser I A),
    reports leaf user p -> reports leaf user (p_next_offset p)
| R_peek : forall A (p : parser I A), reports leaf user p -> reports leaf user (p_peek p)
| R_end : reports leaf user p_end
| R_skip : forall n, reports leaf user (p_skip n)
| R_skip_left : forall A B (p : parser I A) (q : parser I B),
    reports leaf user p -> reports leaf user q -> reports leaf user (p_skip_left p q)
| R_skip_right : forall A B (p : parser I A) (q : parser I B),
    reports leaf user p -> reports leaf user q -> reports leaf user (p_skip_right p q).


Lemma reports_built : forall I (leaf : forall A, parser I A -> Prop) user A (p : parser I A),
  reports leaf user p -> built leaf true true p.
Proof. induction 1; try (constructor; auto; fail). Qed.

(** ** Specification
    Where an error that was met while running at [off] on [inp] may point.  [at_ k]: the stored text is what is left of
    the input at [k].  Three conventions are in use for the reported position: [k + len] (the tests of elements, of
    texts and of the end), the index before [k] (not, repetitions, conversions), and for the two wrappers the index
    before the position where the wrapped parser started. *)
Inductive placed {I} (user : perror I -> Prop) (inp : list I) (off : nat) : perror I -> Prop :=
| P_user : forall e, user e -> placed user inp off e
| P_incomplete : placed user inp off Incomplete
| P_past : forall k len m, off <= k <= length inp -> k + len <= S (length inp) ->
    placed user inp off (Mismatch (skipn k inp) (k + len) len m)
| P_before : forall k len m, off + len <= k <= length inp ->
    placed user inp off (Mismatch (skipn k inp) (k - 1) len m)
| P_conversion : forall k m, off <= k <= length inp ->
    placed user inp off (Conversion (skipn k inp) (k - 1) 0 m)
| P_filter : forall k m, off <= k <= length inp -> placed user inp off (Custom k None m)
| P_named : forall k e m, off <= k <= length inp -> placed user inp k e ->
    placed user inp off (Custom (k - 1) (Some e) m)
| P_expect : forall k e m, off <= k <= length inp -> placed user inp k e ->
    placed user inp off (Expect (k - 1) e m).

Definition places {I A} (user : perror I -> Prop) (p : parser I A) : Prop :=
  forall inp off e c, off <= length inp -> p inp off = Failure e c -> placed user inp off e.

Lemma placed_later : forall I user (inp : list I) off off' e,
  placed user inp off' e -> off <= off' -> placed user inp off e.
Proof.
  intros I user inp off off' e H L. inversion H; subst.
  - now apply P_user.
  - apply P_incomplete.
  - apply P_past; lia.
  - apply P_before; lia.
  - apply P_conversion; lia.
  - apply P_filter; lia.
  - apply P_named; [lia|assumption].
  - apply P_expect; [lia|assumption].
Qed.
Lemma lo : forall n, last_offset_or0 n = n - 1.
Proof. intros [|n]; reflexivity. Qed.

(** The loops of seq, tag and tag_no_case. *)
Lemma seq_loop_fail : forall I (eqb : I -> I -> bool) w input off s rest index e c,
  seq_loop eqb w input off s rest index = Failure e c ->
  e = Incomplete \/ exists i, index <= i < index + length rest /\ e = Mismatch input (off + i) i "seq".
Proof.
  induction s as [|x s IH]; intros rest index e c H; cbn in H; [discriminate|].
  destruct rest as [|y rest]; [inv H; now left|].
  destruct (eqb x y); cbn in H.
  - apply IH in H. destruct H as [->|(i & Hi & ->)]; [now left|]. right. exists i. cbn. split; [lia|reflexivity].
  - inv H. right. exists index. cbn. split; [lia|reflexivity].
Qed.
Lemma tag_loop_fail : forall I (eqb : I -> I -> bool) w input off s rest index e c,
  tag_loop eqb w input off s rest index = Failure e c ->
  e = Incomplete \/ exists i, index <= i < index + length rest /\ e = Mismatch input (off + i) i "tag".
Proof.
  induction s as [|x s IH]; intros rest index e c H; cbn in H; [discriminate|].
  destruct rest as [|y rest]; [inv H; now left|].
  destruct (eqb x y); cbn in H.
  - apply IH in H. destruct H as [->|(i & Hi & ->)]; [now left|]. right. exists i. cbn. split; [lia|reflexivity].
  - inv H. right. exists index. cbn. split; [lia|reflexivity].
Qed.
Lemma tag_no_case_loop_fail : forall I (eqb : I -> I -> bool) w input off s rest index e c,
  tag_no_case_loop eqb w input off s rest index = Failure e c ->
  e = Incomplete \/ exists i, index <= i < index + length rest /\ e = Mismatch input (off + i) i "tag_no_case".
Proof.
  induction s as [|x s IH]; intros rest index e c H; cbn in H; [discriminate|].
  destruct rest as [|y rest]; [inv H; now left|].
  destruct (eqb x y); cbn in H.
  - apply IH in H. destruct H as [->|(i & Hi & ->)]; [now left|]. right. exists i. cbn. split; [lia|reflexivity].
  - inv H. right. exists index. cbn. split; [lia|reflexivity].
Qed.

Lemma rest_left1_places : forall I A user (p : parser I A) op, bounded p -> bounded op ->
  places user p -> places user op -> forall fuel x, places user (rest_left1_fuel fuel p op x).
Proof.
  intros I A user p op Bp Bo Pp Po. induction fuel as [|fuel IH]; intros x inp off e c Ho H; cbn in H; [discriminate|].
  unfold p_or in H. destruct (op inp off) as [f n1|e1 c1| |] eqn:E1; cbn in H; try discriminate.
  - assert (B1 := Bo _ _ _ _ Ho E1).
    destruct (p inp (off + n1)) as [y n2|e2 c2| |] eqn:E2; cbn in H; try discriminate.
    + assert (B2 := Bp _ _ _ _ B1 E2).
      destruct (rest_left1_fuel fuel p op (f x y) inp (off + n1 + n2)) as [z n3|e3 c3| |] eqn:E3; cbn in H; try discriminate.
      assert (Q := IH _ _ _ _ _ B2 E3).
      destruct (negb (cs_or c3 (negb (n1 =? 0)))); [discriminate|]. inv H. eapply placed_later; [exact Q|lia].
    + assert (Q := Pp _ _ _ _ B1 E2).
      destruct (negb (cs_or c2 (negb (n1 =? 0)))); [discriminate|]. inv H. eapply placed_later; [exact Q|lia].
  - destruct (negb c1); [discriminate|]. inv H. exact (Po _ _ _ _ Ho E1).
Qed.

Lemma rep_finish_places : forall I A user rs (inp : list I) off (r : rep_result A) e c,
  rep_finish rs inp off r = Failure e c -> placed user inp off e.
Proof.
  intros I A user rs inp off r e c H. destruct r as [items n| |]; unfold rep_finish in H; try discriminate.
  destruct rs as [m|m|]; try discriminate. destruct (length items <? m); [|discriminate].
  destruct (ps_input inp (off + n)) as [rest|] eqn:ER; [|discriminate].
  apply ps_input_some in ER. destruct ER as [L ->]. inv H. rewrite lo. apply P_before. lia.
Qed.

(** ** C120 *)
Theorem C120_placed : forall I (leaf : forall A, parser I A -> Prop) user,
  (forall A (p : parser I A), leaf A p -> bounded p /\ places user p) ->
  forall A (p : parser I A), reports leaf user p ->
  forall inp off e c, off <= length inp -> p inp off = Failure e c -> placed user inp off e.
Proof.
  intros I leaf user L A p R.
  assert (LB : forall A (p : parser I A), leaf A p -> bounded p) by (intros; now apply L).
  assert (BB : forall A (p : parser I A), reports leaf user p -> bounded p)
    by (intros; eapply built_bounded; [exact LB|]; eapply reports_built; eassumption).
  change (places user p).
  induction R; intros inp off e0 c0 Ho HF.
  - (* leaf *) eapply L; eassumption.
  - discriminate.
  - discriminate.
  - discriminate.
  - inv HF. now apply P_user.
  - unfold p_failed_lazy in HF. destruct (f tt) as [e1 c1]. inv HF. now apply P_user.
  - (* filter *) unfold p_filter in HF. destruct (p inp off) as [v n|e1 c1| |] eqn:ER; try discriminate.
    + destruct (f v); [discriminate|]. inv HF. assert (Bd := BB _ _ R _ _ _ _ Ho ER). apply P_filter. lia.
    + inv HF. eapply IHR; eassumption.
  - (* flat_map *) unfold p_flat_map in HF. destruct (p inp off) as [v n|e1 c1| |] eqn:ER; try discriminate.
    + assert (Bd := BB _ _ R _ _ _ _ Ho ER). destruct (f v inp (off + n)) as [w m|e2 c2| |] eqn:E2; try discriminate.
      cbn in HF. inv HF. eapply placed_later; [eapply (H0 v); eassumption|lia].
    + inv HF. eapply IHR; eassumption.
  - (* map *) unfold p_map in HF. destruct (p inp off) as [v n|e1 c1| |] eqn:ER; try discriminate. inv HF. eapply IHR; eassumption.
  - (* map_panic *) unfold p_map_panic in HF. destruct (p inp off) as [v n|e1 c1| |] eqn:ER; try discriminate.
    + destruct (f v); discriminate.
    + inv HF. eapply IHR; eassumption.
  - (* exists *) unfold p_exists in HF. destruct (p inp off); discriminate.
  - (* not *) unfold p_not in HF. destruct (p inp off) as [v n|e1 c1| |] eqn:ER; try discriminate.
    rewrite ps_input_ok in HF by lia. inv HF. rewrite lo. apply P_before. lia.
  - (* or *) unfold p_or in HF. destruct (p inp off) as [v n|e1 c1| |] eqn:ER; try discriminate.
    destruct (negb c1); [eapply IHR2; eassumption|]. inv HF. eapply IHR1; eassumption.
  - (* and *) unfold p_and in HF. destruct (p inp off) as [v n|e1 c1| |] eqn:ER; try discriminate.
    + assert (Bd := BB _ _ R1 _ _ _ _ Ho ER). destruct (q inp (off + n)) as [w m|e2 c2| |] eqn:E2; try discriminate.
      inv HF. eapply placed_later; [eapply IHR2; eassumption|lia].
    + inv HF. eapply IHR1; eassumption.
  - (* attempt *) unfold p_attempt in HF. destruct (p inp off) as [v n|e1 c1| |] eqn:ER; try discriminate.
    assert (e1 = e0) by (destruct c1; cbn in HF; now inv HF). subst. eapply IHR; eassumption.
  - (* rest_left1 *) unfold p_rest_left1 in HF. exact (rest_left1_places (BB _ _ R1) (BB _ _ R2) IHR1 IHR2 (chain_fuel inp off) x inp Ho HF).
  - eapply rep_finish_places. exact HF.
  - eapply rep_finish_places. exact HF.
  - (* seq *) unfold p_seq in HF. rewrite ps_input_ok in HF by exact Ho. apply seq_loop_fail in HF.
    rewrite skipn_len in HF. destruct HF as [->|(i & Hi & ->)]; [apply P_incomplete|]. apply P_past; lia.
  - unfold p_tag_by in HF. rewrite ps_input_ok in HF by exact Ho. apply tag_loop_fail in HF.
    rewrite skipn_len in HF. destruct HF as [->|(i & Hi & ->)]; [apply P_incomplete|]. apply P_past; lia.
  - unfold p_tag_no_case_by in HF. rewrite ps_input_ok in HF by exact Ho. apply tag_no_case_loop_fail in HF.
    rewrite skipn_len in HF. destruct HF as [->|(i & Hi & ->)]; [apply P_incomplete|]. apply P_past; lia.
  - (* elm_pred_ref *) unfold p_elm_pred_ref in HF. rewrite ps_input_ok in HF by exact Ho.
    assert (e0 = Mismatch (skipn off inp) (off + 1) 1 "offset") as ->
      by (destruct (skipn off inp) as [|x r]; [now inv HF|destruct (f x); now inv HF]).
    apply P_past; lia.
  - unfold p_elm_ref_of in HF. rewrite ps_input_ok in HF by exact Ho.
    destruct (skipn off inp) as [|x r] eqn:Es; [inv HF; apply P_incomplete|]. destruct (f x); [discriminate|]. inv HF.
    rewrite <- Es. apply P_past; lia.
  - unfold p_none_ref_of in HF. rewrite ps_input_ok in HF by exact Ho.
    destruct (skipn off inp) as [|x r] eqn:Es; [inv HF; apply P_incomplete|]. destruct (f x); [|discriminate]. inv HF.
    rewrite <- Es. apply P_past; lia.
  - (* take *) unfold p_take in HF. rewrite ps_input_ok in HF by exact Ho.
    destruct (n <=? length (skipn off inp)); [destruct (slice_with_len inp off n); discriminate|]. inv HF. apply P_incomplete.
  - unfold p_take_while0 in HF. rewrite ps_input_ok in HF by exact Ho.
    destruct (tw_loop f (skipn off inp) 0 None 0) as [[s|] l].
    + destruct (slice (skipn off inp) s (s + l)); discriminate.
    + destruct (slice_with_len inp off 0); discriminate.
  - unfold p_take_while1 in HF. rewrite ps_input_ok in HF by exact Ho.
    destruct (tw_loop f (skipn off inp) 0 None 0) as [[s|] l].
    + destruct (slice (skipn off inp) s (s + l)); discriminate.
    + inv HF. apply P_incomplete.
  - unfold p_take_while_n_m in HF. rewrite ps_input_ok in HF by exact Ho.
    destruct (tw_loop f (skipn off inp) 0 None 0) as [[s|] l].
    + destruct (slice (skipn off inp) s (s + l)) as [v|]; [|discriminate].
      destruct ((n <=? length v) && (length v <=? m)); [discriminate|]. inv HF. apply P_incomplete.
    + inv HF. apply P_incomplete.
  - unfold p_take_till0 in HF. rewrite ps_input_ok in HF by exact Ho.
    destruct (tt_loop f (skipn off inp) 0) as [i [|]]; [destruct (slice_with_len inp off (i + 1))|]; discriminate.
  - unfold p_take_till1 in HF. rewrite ps_input_ok in HF by exact Ho.
    destruct (tt_loop f (skipn off inp) 0) as [i [|]]; [destruct (slice_with_len inp off (i + 1)); discriminate|].
    inv HF. apply P_incomplete.
  - (* collect *) unfold p_collect in HF. destruct (p inp off) as [v n|e1 c1| |] eqn:ER; try discriminate.
    + destruct (slice_with_len inp off n); discriminate.
    + inv HF. eapply IHR; eassumption.
  - (* map_res *) unfold p_map_res in HF. destruct (p inp off) as [v n|e1 c1| |] eqn:ER; try discriminate.
    + destruct (f v); [discriminate|]. rewrite ps_input_ok in HF by exact Ho. inv HF. rewrite lo. apply P_conversion. lia.
    + inv HF. eapply IHR; eassumption.
  - unfold p_map_opt in HF. destruct (p inp off) as [v n|e1 c1| |] eqn:ER; try discriminate.
    + destruct (f v); [discriminate|]. rewrite ps_input_ok in HF by exact Ho. inv HF. rewrite lo. apply P_conversion. lia.
    + inv HF. eapply IHR; eassumption.
  - unfold p_discard in HF. destruct (p inp off) as [v n|e1 c1| |] eqn:ER; try discriminate. inv HF. eapply IHR; eassumption.
  - eapply IHR; eassumption.
  - eapply IHR; [exact Ho|]. exact HF.
  - (* name *) unfold p_name in HF. destruct (p inp off) as [v n|e1 c1| |] eqn:ER; try discriminate.
    assert (Q := IHR _ _ _ _ Ho ER). destruct (is_custom e1); inv HF; [exact Q|]. rewrite lo. apply P_named; [lia|exact Q].
  - unfold p_expect in HF. destruct (p inp off) as [v n|e1 c1| |] eqn:ER; try discriminate.
    assert (Q := IHR _ _ _ _ Ho ER). inv HF. rewrite lo. apply P_expect; [lia|exact Q].
  - unfold p_last_offset in HF. destruct (p inp off) as [v n|e1 c1| |] eqn:ER; try discriminate. inv HF. eapply IHR; eassumption.
  - unfold p_next_offset in HF. destruct (p inp off) as [v n|e1 c1| |] eqn:ER; try discriminate. inv HF. eapply IHR; eassumption.
  - unfold p_peek in HF. destruct (p inp off) as [v n|e1 c1| |] eqn:ER; try discriminate. inv HF. eapply IHR; eassumption.
  - (* end *) unfold p_end in HF. rewrite ps_input_ok in HF by exact Ho.
    destruct (skipn off inp) as [|x r] eqn:Es; [discriminate|]. inv HF. rewrite <- Es. apply P_past; lia.
  - unfold p_skip in HF. rewrite ps_input_ok in HF by exact Ho.
    destruct (n <=? length (skipn off inp)); [discriminate|]. inv HF. apply P_incomplete.
  - unfold p_skip_left in HF. destruct (p inp off) as [v n|e1 c1| |] eqn:ER; try discriminate.
    + assert (Bd := BB _ _ R1 _ _ _ _ Ho ER). destruct (q inp (off + n)) as [w m|e2 c2| |] eqn:E2; try discriminate.
      inv HF. eapply placed_later; [eapply IHR2; eassumption|lia].
    + inv HF. eapply IHR1; eassumption.
  - unfold p_skip_right in HF. destruct (p inp off) as [v n|e1 c1| |] eqn:ER; try discriminate.
    + assert (Bd := BB _ _ R1 _ _ _ _ Ho ER). destruct (q inp (off + n)) as [w m|e2 c2| |] eqn:E2; try discriminate.
      inv HF. eapply placed_later; [eapply IHR2; eassumption|lia].
    + inv HF. eapply IHR1; eassumption.
Qed.

(** ** What a user of the error sees
    The positions named by an error, from the outside in (core/parse_error.rs 6-35). *)
Fixpoint error_offsets {I} (e : perror I) : list nat :=
  match e with
  | Mismatch _ o _ _ => [o]
  | Conversion _ o _ _ => [o]
  | Incomplete => []
  | Expect o i _ => o :: error_offsets i
  | Custom o (Some i) _ => o :: error_offsets i
  | Custom o None _ => [o]
  end.
(** The innermost error, if it carries a text: the text, the position and the length. *)
Fixpoint error_core {I} (e : perror I) : option (list I * nat * nat) :=
  match e with
  | Mismatch t o n _ => Some (t, o, n)
  | Conversion t o n _ => Some (t, o, n)
  | Incomplete => None
  | Expect _ i _ => error_core i
  | Custom _ (Some i) _ => error_core i
  | Custom _ None _ => None
  end.

Definition nothing {I} : perror I -> Prop := fun _ => False.

Lemma one_sorted : forall (P : nat -> Prop) o, P o -> Forall P [o] /\ StronglySorted le [o].
Proof. intros P o H. split; [constructor; [exact H|constructor]|]. constructor; constructor. Qed.

Lemma placed_range : forall I (inp : list I) off e, placed nothing inp off e ->
  Forall (fun o => off - 1 <= o <= S (length inp)) (error_offsets e) /\
  StronglySorted le (error_offsets e).
Proof.
  intros I inp off e H. induction H; cbn.
  - destruct H.
  - split; constructor.
  - apply one_sorted. lia.
  - apply one_sorted. lia.
  - apply one_sorted. lia.
  - apply one_sorted. lia.
  - destruct IHplaced as [F S]. split.
    + constructor; [lia|]. eapply Forall_impl; [|exact F]. cbn. intros; lia.
    + constructor; [exact S|]. eapply Forall_impl; [|exact F]. cbn. intros; lia.
  - destruct IHplaced as [F S]. split.
    + constructor; [lia|]. eapply Forall_impl; [|exact F]. cbn. intros; lia.
    + constructor; [exact S|]. eapply Forall_impl; [|exact F]. cbn. intros; lia.
Qed.

(** Every position an error names lies between the index before the start and one past the end of the input; from the
    outside in, the positions do not go back. *)
Theorem C120_positions : forall I A (p : parser I A), reports no_leaf nothing p ->
  forall inp off e c, off <= length inp -> p inp off = Failure e c ->
  (forall o, In o (error_offsets e) -> off - 1 <= o <= S (length inp)) /\
  StronglySorted le (error_offsets e).
Proof.
  intros I A p R inp off e c Ho H.
  assert (Q : placed nothing inp off e)
    by (eapply (@C120_placed I no_leaf nothing); [intros ? ? []|exact R|exact Ho|exact H]).
  apply placed_range in Q. destruct Q as [F S]. split; [|exact S]. intros o Hi.
  rewrite Forall_forall in F. now apply F.
Qed.

(** The text an error carries is what is left of the input at some position [k] from the start on, hence [k] can be read
    off its length; the named position is the index before [k], or [k] plus the reported length, at most one past the
    end. *)
Theorem C120_text : forall I A (p : parser I A), reports no_leaf nothing p ->
  forall inp off e c t o n, off <= length inp -> p inp off = Failure e c -> error_core e = Some (t, o, n) ->
  let k := length inp - length t in
  off <= k <= length inp /\ t = skipn k inp /\ (o = k - 1 /\ off + n <= k \/ o = k + n /\ k + n <= S (length inp)).
Proof.
  intros I A p R inp off e c t o n Ho H Hc.
  assert (Q : placed nothing inp off e)
    by (eapply (@C120_placed I no_leaf nothing); [intros ? ? []|exact R|exact Ho|exact H]).
  clear R H. cbv zeta.
  assert (K : exists k, off <= k <= length inp /\ t = skipn k inp /\
    (o = k - 1 /\ off + n <= k \/ o = k + n /\ k + n <= S (length inp))).
  { revert Ho Hc. induction Q as [off e U|off|off k l m H1 H2|off k l m H1|off k m H1|off k m H1|off k e m H1 Q IH|off k e m H1 Q IH];
      cbn; intros Ho Hc; try (inv Hc; fail).
    - destruct U.
    - inv Hc. exists k. split; [lia|]. split; [reflexivity|]. right. lia.
    - inv Hc. exists k. split; [lia|]. split; [reflexivity|]. left. lia.
    - inv Hc. exists k. split; [lia|]. split; [reflexivity|]. left. lia.
    - destruct IH as (j & J1 & J2 & J3); [lia|exact Hc|]. exists j. split; [lia|]. split; [exact J2|].
      destruct J3; [left|right]; lia.
    - destruct IH as (j & J1 & J2 & J3); [lia|exact Hc|]. exists j. split; [lia|]. split; [exact J2|].
      destruct J3; [left|right]; lia. }
  destruct K as (k & K1 & K2 & K3). assert (E : length inp - length t = k) by (rewrite K2, skipn_len; lia).
  rewrite E. auto.
Qed.

(** Full statement: an error names the position where the parser stopped, which is a position of the input from the start
    on.  It fails on both sides: a test of an element at the end names the position after the end, and not names the
    element before its start. *)
Theorem C120_inside_refuted : exists (p : parser N N) inp e c o, reports no_leaf nothing p /\
  parse p inp = Failure e c /\ In o (error_offsets e) /\ length inp < o.
Proof.
  exists (p_elm (chr "a")), [], (Mismatch [] 1 1 "offset"), false, 1.
  split; [unfold p_elm, p_elm_eq, p_elm_ref_eq; apply R_map, R_elm_pred_ref|]. vm_compute. auto.
Qed.
Theorem C120_from_start_refuted : exists (p : parser N unit) inp off e c o, reports no_leaf nothing p /\ off <= length inp /\
  p inp off = Failure e c /\ In o (error_offsets e) /\ o < off.
Proof.
  exists (p_not (p_elm (chr "b"))), (bs "ab"), 1, (Mismatch (bs "b") 0 0 "not predicate failed"), false, 0.
  split; [apply R_not; unfold p_elm, p_elm_eq, p_elm_ref_eq; apply R_map, R_elm_pred_ref|]. vm_compute. auto.
Qed.
(** Two failures at one place name two positions: the first digit of a number that is missing, asked for once and asked
    for at least once. *)
Theorem C120_one_place_refuted : exists (p : parser N N) inp off e c e' c', reports no_leaf nothing p /\ off <= length inp /\
  p inp off = Failure e c /\ p_many1 p inp off = Failure e' c' /\
  error_offsets e = [off + 1] /\ error_offsets e' = [off - 1] /\
  (exists t n o' n', error_core e = Some (t, off + 1, n) /\ error_core e' = Some (t, o', n')).
Proof.
  exists p_elm_digit, (bs "1+x"), 2, (Mismatch (bs "x") 3 1 "offset"), false,
    (Mismatch (bs "x") 1 0 "expect repeat at least"), false.
  split; [unfold p_elm_digit, p_elm_pred; apply R_map, R_elm_pred_ref|].
  split; [cbn; lia|]. split; [reflexivity|]. split; [reflexivity|]. split; [reflexivity|]. split; [reflexivity|].
  exists (bs "x"), 1, 1, 0. split; reflexivity.
Qed.

Definition sum_grammar : parser N (N * N) :=
  p_and p_elm_digit (p_skip_left (p_elm (chr "+")) (p_expect (p_name p_elm_digit "digit") "number")).
Example C120_example : reports no_leaf nothing sum_grammar /\
  exists e c, parse sum_grammar (bs "1+x") = Failure e c /\ error_offsets e = [1; 1; 3] /\
  error_core e = Some (bs "x", 3, 1).
Proof.
  split.
  - unfold sum_grammar. apply R_and; [apply R_map, R_elm_pred_ref|].
    apply R_skip_left; [apply R_map, R_elm_pred_ref|]. apply R_expect, R_name, R_map, R_elm_pred_ref.
  - exists (Expect 1 (Custom 1 (Some (Mismatch (bs "x") 3 1 "offset")) "digit") "number"), false.
    vm_compute. auto.
Qed.
Print Assumptions C120_placed.
Print Assumptions C120_positions.
Print Assumptions C120_text.
Print Assumptions C120_inside_refuted.
Print Assumptions C120_from_start_refuted.
Print Assumptions C120_one_place_refuted.
