(** The closure of the public combinators, and the invariants that hold throughout it. *)
From Verif Require Import Base Core Comb.
Set Implicit Arguments.

(** ** Specification vocabulary *)

(** The reported length stays inside the input. *)
Definition bounded {I A} (p : parser I A) : Prop :=
  forall inp off v n, off <= length inp -> p inp off = Success v n -> off + n <= length inp.

(** No panic at any position inside the input. *)
Definition no_panic {I A} (p : parser I A) : Prop :=
  forall inp off, off <= length inp -> p inp off <> Panic.

(** What is observable when the content of errors is ignored. *)
Inductive shape (A : Type) : Type :=
| ShSuccess (v : A) (n : nat) | ShFailure (c : committed_status) | ShPanic | ShDiverge.
Arguments ShSuccess {A}. Arguments ShFailure {A}. Arguments ShPanic {A}. Arguments ShDiverge {A}.
Definition erase {I A} (o : outcome I A) : shape A :=
  match o with
  | Success v n => ShSuccess v n
  | Failure _ c => ShFailure c
  | Panic => ShPanic
  | Diverge => ShDiverge
  end.

(** Running at position k + off is running at off in the input without its first k elements. *)
Definition shiftable {I A} (p : parser I A) : Prop :=
  forall k inp off, k <= length inp -> erase (p inp (k + off)) = erase (p (skipn k inp) off).

(** ** The closure
    [leaf]: additional primitives (Parser::new with a user closure, regex, ...);
    [ofs]: may last_offset/next_offset occur;  [pan]: may map closures panic. *)
Inductive built {I : Type} (leaf : forall A, parser I A -> Prop) (ofs pan : bool)
  : forall A, parser I A -> Prop :=
| B_leaf : forall A (p : parser I A), leaf A p -> built leaf ofs pan p
| B_diverge : forall A, built leaf ofs pan (@p_diverge I A)
| B_successful : forall A (v : A), built leaf ofs pan (p_successful v)
| B_successful_lazy : forall A (v : unit -> A), built leaf ofs pan (p_successful_lazy v)
| B_failed : forall A e c, built leaf ofs pan (@p_failed I A e c)
| B_failed_lazy : forall A f, built leaf ofs pan (@p_failed_lazy I A f)
| B_filter : forall A (p : parser I A) f, built leaf ofs pan p -> built leaf ofs pan (p_filter p f)
| B_flat_map : forall A B (p : parser I A) (f : A -> parser I B),
    built leaf ofs pan p -> (forall a, built leaf ofs pan (f a)) -> built leaf ofs pan (p_flat_map p f)
| B_map : forall A B (p : parser I A) (f : A -> B), built leaf ofs pan p -> built leaf ofs pan (p_map p f)
| B_map_panic : forall A B (p : parser I A) (f : A -> option B),
    pan = true -> built leaf ofs pan p -> built leaf ofs pan (p_map_panic p f)
| B_exists : forall A (p : parser I A), built leaf ofs pan p -> built leaf ofs pan (p_exists p)
| B_not : forall A (p : parser I A), built leaf ofs pan p -> built leaf ofs pan (p_not p)
| B_or : forall A (p q : parser I A),
    built leaf ofs pan p -> built leaf ofs pan q -> built leaf ofs pan (p_or p q)
| B_and : forall A B (p : parser I A) (q : parser I B),
    built leaf ofs pan p -> built leaf ofs pan q -> built leaf ofs pan (p_and p q)
| B_attempt : forall A (p : parser I A), built leaf ofs pan p -> built leaf ofs pan (p_attempt p)
| B_rest_left1 : forall A (p : parser I A) op (x : A),
    built leaf ofs pan p -> built leaf ofs pan op -> built leaf ofs pan (p_rest_left1 p op x)
| B_repeat_sep : forall A B (p : parser I A) r (s : parser I B),
    built leaf ofs pan p -> built leaf ofs pan s -> built leaf ofs pan (p_repeat_sep p r (Some s))
| B_repeat_nosep : forall A B (p : parser I A) r,
    built leaf ofs pan p -> built leaf ofs pan (p_repeat_sep p r (None : option (parser I B)))
| B_seq : forall eqb s, built leaf ofs pan (p_seq eqb s)
| B_tag : forall eqb s, built leaf ofs pan (p_tag_by eqb s)
| B_tag_no_case : forall eqb s, built leaf ofs pan (p_tag_no_case_by eqb s)
| B_elm_pred_ref : forall f, built leaf ofs pan (p_elm_pred_ref f)
| B_elm_ref_of : forall f, built leaf ofs pan (p_elm_ref_of f)
| B_none_ref_of : forall f, built leaf ofs pan (p_none_ref_of f)
| B_take : forall n, built leaf ofs pan (p_take n)
| B_take_while0 : forall f, built leaf ofs pan (p_take_while0 f)
| B_take_while1 : forall f, built leaf ofs pan (p_take_while1 f)
| B_take_while_n_m : forall n m f, built leaf ofs pan (p_take_while_n_m n m f)
| B_take_till0 : forall f, built leaf ofs pan (p_take_till0 f)
| B_take_till1 : forall f, built leaf ofs pan (p_take_till1 f)
| B_collect : forall A (p : parser I A), built leaf ofs pan p -> built leaf ofs pan (p_collect p)
| B_map_res : forall A B E (p : parser I A) (f : A -> B + E),
    built leaf ofs pan p -> built leaf ofs pan (p_map_res p f)
| B_map_opt : forall A B (p : parser I A) (f : A -> option B),
    built leaf ofs pan p -> built leaf ofs pan (p_map_opt p f)
| B_discard : forall A (p : parser I A), built leaf ofs pan p -> built leaf ofs pan (p_discard p)
| B_lazy : forall A (f : unit -> parser I A), built leaf ofs pan (f tt) -> built leaf ofs pan (p_lazy f)
| B_log_map : forall A B (p : parser I A) (f : outcome I A -> B),
    built leaf ofs pan p -> built leaf ofs pan (p_log_map p f)
| B_name : forall A (p : parser I A) nm, built leaf ofs pan p -> built leaf ofs pan (p_name p nm)
| B_expect : forall A (p : parser I A) nm, built leaf ofs pan p -> built leaf ofs pan (p_expect p nm)
| B_last_offset : forall A (p : parser I A),
    ofs = true -> built leaf ofs pan p -> built leaf ofs pan (p_last_offset p)
| B_next_offset : forall A (p : parser I A),
    ofs = true -> built leaf ofs pan p -> built leaf ofs pan (p_next_offset p)
| B_peek : forall A (p : parser I A), built leaf ofs pan p -> built leaf ofs pan (p_peek p)
| B_end : built leaf ofs pan p_end
| B_skip : forall n, built leaf ofs pan (p_skip n)
| B_skip_left : forall A B (p : parser I A) (q : parser I B),
    built leaf ofs pan p -> built leaf ofs pan q -> built leaf ofs pan (p_skip_left p q)
| B_skip_right : forall A B (p : parser I A) (q : parser I B),
    built leaf ofs pan p -> built leaf ofs pan q -> built leaf ofs pan (p_skip_right p q).

(** No additional primitives. *)
Definition no_leaf {I} : forall A, parser I A -> Prop := fun _ _ => False.

(** ** Elementary facts about the primitives *)
Lemma ps_input_some : forall I (inp : list I) off r,
  ps_input inp off = Some r <-> off <= length inp /\ r = skipn off inp.
Proof. intros. apply slice_from_some. Qed.

Lemma ps_input_ok : forall I (inp : list I) off,
  off <= length inp -> ps_input inp off = Some (skipn off inp).
Proof. intros. apply ps_input_some. auto. Qed.

Lemma slice_with_len_ok : forall I (inp : list I) off n,
  off + n <= length inp -> slice_with_len inp off n = Some (firstn n (skipn off inp)).
Proof.
  intros. apply slice_some. repeat split; try lia. f_equal. lia.
Qed.

Lemma seq_loop_len : forall I (eqb : I -> I -> bool) w input off s rest index v n,
  seq_loop eqb w input off s rest index = Success v n ->
  n = index + length s /\ length s <= length rest /\ v = w.
Proof.
  induction s as [|c s IH]; intros rest index v n H; cbn in H.
  - injection H as <- <-. cbn. repeat split; lia.
  - destruct rest as [|x rest]; [discriminate|].
    destruct (eqb c x); cbn in H; [|discriminate].
    apply IH in H. cbn. intuition lia.
Qed.

Lemma seq_loop_np : forall I (eqb : I -> I -> bool) w input off s rest index,
  seq_loop eqb w input off s rest index <> Panic /\ seq_loop eqb w input off s rest index <> Diverge.
Proof.
  induction s as [|c s IH]; intros rest index; cbn; [split; discriminate|].
  destruct rest as [|x rest]; [split; discriminate|].
  destruct (eqb c x); cbn; [apply IH|split; discriminate].
Qed.

Lemma tag_loop_len : forall I (eqb : I -> I -> bool) w input off s rest index v n,
  tag_loop eqb w input off s rest index = Success v n ->
  n = index + length s /\ length s <= length rest /\ v = w.
Proof.
  induction s as [|c s IH]; intros rest index v n H; cbn in H.
  - injection H as <- <-. cbn. repeat split; lia.
  - destruct rest as [|x rest]; [discriminate|].
    destruct (eqb c x); cbn in H; [|discriminate].
    apply IH in H. cbn. intuition lia.
Qed.

Lemma tag_loop_np : forall I (eqb : I -> I -> bool) w input off s rest index,
  tag_loop eqb w input off s rest index <> Panic /\ tag_loop eqb w input off s rest index <> Diverge.
Proof.
  induction s as [|c s IH]; intros rest index; cbn; [split; discriminate|].
  destruct rest as [|x rest]; [split; discriminate|].
  destruct (eqb c x); cbn; [apply IH|split; discriminate].
Qed.

Lemma tag_no_case_loop_len : forall I (eqb : I -> I -> bool) w input off s rest index v n,
  tag_no_case_loop eqb w input off s rest index = Success v n ->
  n = index + length s /\ length s <= length rest /\ v = w.
Proof.
  induction s as [|c s IH]; intros rest index v n H; cbn in H.
  - injection H as <- <-. cbn. repeat split; lia.
  - destruct rest as [|x rest]; [discriminate|].
    destruct (eqb c x); cbn in H; [|discriminate].
    apply IH in H. cbn. intuition lia.
Qed.

Lemma tag_no_case_loop_np : forall I (eqb : I -> I -> bool) w input off s rest index,
  tag_no_case_loop eqb w input off s rest index <> Panic /\
  tag_no_case_loop eqb w input off s rest index <> Diverge.
Proof.
  induction s as [|c s IH]; intros rest index; cbn; [split; discriminate|].
  destruct rest as [|x rest]; [split; discriminate|].
  destruct (eqb c x); cbn; [apply IH|split; discriminate].
Qed.

(** The scanning loop of take_while: first matching index and number of matches. *)
Lemma tw_loop_inv : forall I (f : I -> bool) rest index start len s l,
  tw_loop f rest index start len = (s, l) ->
  l = len + length (filter f rest) /\
  match start with
  | Some a => s = Some a
  | None =>
      match s with
      | None => filter f rest = []
      | Some a => index <= a /\ a - index + length (filter f rest) <= length rest
      end
  end.
Proof.
  induction rest as [|c rest IH]; intros index start len s l H; cbn in H.
  - injection H as <- <-. cbn. split; [lia|]. destruct start; auto.
  - cbn [filter]. destruct (f c) eqn:E.
    + apply IH in H. destruct H as [H1 H2]. split; [cbn; lia|].
      destruct start as [a|]; [exact H2|]. rewrite H2. cbn [List.length].
      assert (length (filter f rest) <= length rest).
      { clear. induction rest; cbn; [lia|]. destruct (f a); cbn; lia. }
      lia.
    + apply IH in H. destruct H as [H1 H2]. split; [exact H1|].
      destruct start as [a|]; [exact H2|]. destruct s as [a|]; [|exact H2].
      cbn [List.length]. lia.
Qed.

Lemma tw_loop_slice : forall I (f : I -> bool) input s l,
  tw_loop f input 0 None 0 = (Some s, l) ->
  s + l <= length input /\ slice input s (s + l) = Some (firstn l (skipn s input)).
Proof.
  intros I f input s l H. apply tw_loop_inv in H. cbn in H. destruct H as [-> [_ H]].
  split; [lia|]. apply slice_some. repeat split; try lia. f_equal; lia.
Qed.

Lemma tt_loop_inv : forall I (f : I -> bool) rest index i b,
  tt_loop f rest index = (i, b) -> index <= i /\ (b = true -> i - index < length rest) /\
                                   (b = false -> i - index = length rest).
Proof.
  induction rest as [|c rest IH]; intros index i b H; cbn in H.
  - injection H as <- <-. cbn. repeat split; try lia; discriminate.
  - destruct (f c).
    + injection H as <- <-. cbn. repeat split; try lia; discriminate.
    + apply IH in H. cbn. destruct H as (H1 & H2 & H3). repeat split; try lia; intros E.
      * specialize (H2 E); lia.
      * specialize (H3 E); lia.
Qed.

(** ** Boundedness is closed under every combinator (C01) *)
Ltac inv H := inversion H; subst; clear H.

(** Destruct the innermost scrutinee in hypothesis H. *)
Ltac mdestr H :=
  repeat match type of H with
  | context [match ?x with _ => _ end] =>
      lazymatch x with
      | context [match _ with _ => _ end] => fail
      | _ => let E := fresh "E" in destruct x eqn:E; try discriminate
      end
  end.

Lemma rep_loop_bounded : forall I A B (p : parser I A) (sep : option (parser I B)) rend inp,
  bounded p -> (forall s, sep = Some s -> bounded s) ->
  forall fuel cur items al its al',
  cur <= length inp ->
  rep_loop fuel p sep rend inp cur items al = RDone its al' ->
  al <= al' /\ cur + (al' - al) <= length inp.
Proof.
  intros I A B p sep rend inp Hp Hs fuel.
  induction fuel as [|fuel IH]; intros cur items al its al' Hc H; cbn in H; [discriminate|].
  destruct (rep_stop rend (length items)). { inv H. lia. }
  destruct sep as [s|].
  - specialize (Hs s eq_refl).
    destruct (s inp cur) as [v n|e c| |] eqn:Es; try discriminate; [|inv H; lia].
    pose proof (Hs _ _ _ _ Hc Es) as Hn.
    destruct (p inp (cur + n)) as [v' n'|e c| |] eqn:Ep; try discriminate; [|inv H; lia].
    pose proof (Hp _ _ _ _ Hn Ep). apply IH in H; lia.
  - destruct (p inp cur) as [v' n'|e c| |] eqn:Ep; try discriminate; [|inv H; lia].
    pose proof (Hp _ _ _ _ Hc Ep). apply IH in H; lia.
Qed.

Lemma repeat_sep_fuel_bounded : forall I A B (p : parser I A) r (sep : option (parser I B)) fuel,
  bounded p -> (forall s, sep = Some s -> bounded s) -> bounded (repeat_sep_fuel fuel p r sep).
Proof.
  intros I A B p r sep fuel Hp Hs inp off v n Ho H. unfold repeat_sep_fuel in H.
  assert (G : forall rr, (forall its al, rr = RDone its al -> off + al <= length inp) ->
              rep_finish (rg_start r) inp off rr = Success v n -> off + n <= length inp).
  { intros rr Hr Hf. unfold rep_finish in Hf. destruct rr as [its al| |]; try discriminate.
    specialize (Hr _ _ eq_refl).
    destruct (rg_start r); [destruct (length its <? n0)|..]; try (inv Hf; lia).
    destruct (ps_input inp (off + al)); discriminate. }
  apply (G _) in H; [exact H|]. intros its al Hr.
  destruct (p inp off) as [v0 n0|e c| |] eqn:Ep; try discriminate.
  - pose proof (Hp _ _ _ _ Ho Ep).
    pose proof (rep_loop_bounded _ _ Hp Hs _ _ _ H0 Hr). lia.
  - inv Hr. lia.
Qed.

Lemma rest_left1_fuel_bounded : forall I A (p : parser I A) op, bounded p -> bounded op ->
  forall fuel x, bounded (rest_left1_fuel fuel p op x).
Proof.
  intros I A p op Hp Hop fuel. induction fuel as [|fuel IH]; intros x inp off v n Ho H; cbn in H;
    [discriminate|].
  unfold p_or in H.
  destruct (op inp off) as [f n1|e c| |] eqn:Eop; try discriminate.
  - pose proof (Hop _ _ _ _ Ho Eop) as H1.
    destruct (p inp (off + n1)) as [y n2|e c| |] eqn:Ep; try discriminate.
    + pose proof (Hp _ _ _ _ H1 Ep) as H2.
      destruct (rest_left1_fuel fuel p op (f x y) inp (off + n1 + n2)) as [v3 n3|e c| |] eqn:Er;
        try discriminate; cbn in H.
      * pose proof (IH _ _ _ _ _ H2 Er). inv H. lia.
      * destruct (cs_or c _); cbn in H; [discriminate|inv H; lia].
    + cbn in H. destruct (cs_or c _); cbn in H; [discriminate|inv H; lia].
  - destruct c; cbn in H; [discriminate|inv H; lia].
Qed.

Lemma skipn_len : forall I (l : list I) n, length (skipn n l) = length l - n.
Proof. intros; apply skipn_length. Qed.

Theorem built_bounded : forall I (leaf : forall A, parser I A -> Prop) ofs pan,
  (forall A (p : parser I A), leaf A p -> bounded p) ->
  forall A (p : parser I A), built leaf ofs pan p -> bounded p.
Proof.
  intros I leaf ofs pan Hleaf A p Hb. induction Hb.
  - now apply Hleaf.
  - intros inp off v n _ H; discriminate.
  - intros inp off v0 n Ho H; inv H; lia.
  - intros inp off v0 n Ho H; inv H; lia.
  - intros inp off v n _ H; discriminate.
  - intros inp off v n _ H; unfold p_failed_lazy in H. destruct (f tt). discriminate.
  - intros inp off v n Ho H; unfold p_filter in H. mdestr H; inv H; eauto.
  - intros inp off v n Ho HR; unfold p_flat_map in HR.
    destruct (p inp off) as [a n1|e c| |] eqn:E; try discriminate.
    pose proof (IHHb _ _ _ _ Ho E) as G.
    destruct (f a inp (off + n1)) eqn:E2; try discriminate. cbn in HR.
    pose proof (H0 a _ _ _ _ G E2). inv HR. lia.
  - intros inp off v n Ho H; unfold p_map in H. mdestr H; inv H; eauto.
  - intros inp off v n Ho H1; unfold p_map_panic in H1. mdestr H1; inv H1; eauto.
  - intros inp off v n Ho H; unfold p_exists in H. mdestr H; inv H; lia.
  - intros inp off v n Ho H; unfold p_not in H. mdestr H; inv H; lia.
  - intros inp off v n Ho H; unfold p_or in H. destruct (p inp off) eqn:E; try discriminate.
    + inv H. eauto.
    + destruct committed; cbn in H; [discriminate|]. eauto.
  - intros inp off v n Ho H; unfold p_and in H.
    destruct (p inp off) as [a n1|e c| |] eqn:E; try discriminate.
    destruct (q inp (off + n1)) as [b n2|e c| |] eqn:E2; try discriminate.
    pose proof (IHHb1 _ _ _ _ Ho E) as G. pose proof (IHHb2 _ _ _ _ G E2). inv H. lia.
  - intros inp off v n Ho H; unfold p_attempt in H. destruct (p inp off) eqn:E; cbn in H; try discriminate.
    + inv H; eauto.
    + destruct committed; discriminate.
  - intros inp off v n Ho H. unfold p_rest_left1 in H.
    revert H. apply rest_left1_fuel_bounded; assumption.
  - intros inp off v n Ho H. unfold p_repeat_sep in H.
    revert H. apply repeat_sep_fuel_bounded; auto. intros s0 Hs; inv Hs; auto.
  - intros inp off v n Ho H. unfold p_repeat_sep in H.
    revert H. apply repeat_sep_fuel_bounded; auto. intros s0 Hs; inv Hs.
  - intros inp off v n Ho H; unfold p_seq in H. rewrite ps_input_ok in H by exact Ho.
    apply seq_loop_len in H. rewrite skipn_len in H. lia.
  - intros inp off v n Ho H; unfold p_tag_by in H. rewrite ps_input_ok in H by exact Ho.
    apply tag_loop_len in H. rewrite skipn_len in H. lia.
  - intros inp off v n Ho H; unfold p_tag_no_case_by in H. rewrite ps_input_ok in H by exact Ho.
    apply tag_no_case_loop_len in H. rewrite skipn_len in H. lia.
  - intros inp off v n Ho H; unfold p_elm_pred_ref in H. rewrite ps_input_ok in H by exact Ho.
    destruct (skipn off inp) eqn:E; [discriminate|]. apply skipn_cons_nth in E. mdestr H. inv H. lia.
  - intros inp off v n Ho H; unfold p_elm_ref_of in H. rewrite ps_input_ok in H by exact Ho.
    destruct (skipn off inp) eqn:E; [discriminate|]. apply skipn_cons_nth in E. mdestr H. inv H. lia.
  - intros inp off v n Ho H; unfold p_none_ref_of in H. rewrite ps_input_ok in H by exact Ho.
    destruct (skipn off inp) eqn:E; [discriminate|]. apply skipn_cons_nth in E. mdestr H. inv H. lia.
  - intros inp off v m Ho H; unfold p_take in H. rewrite ps_input_ok in H by exact Ho.
    destruct (Nat.leb_spec n (length (skipn off inp))); [|discriminate].
    rewrite skipn_len in *. mdestr H. inv H. lia.
  - intros inp off v m Ho H; unfold p_take_while0 in H. rewrite ps_input_ok in H by exact Ho.
    destruct (tw_loop f (skipn off inp) 0 None 0) as [[s|] l] eqn:E.
    + apply tw_loop_slice in E. destruct E as [E1 E2]. rewrite E2 in H. rewrite skipn_len in *. inv H. lia.
    + mdestr H. inv H. lia.
  - intros inp off v m Ho H; unfold p_take_while1 in H. rewrite ps_input_ok in H by exact Ho.
    destruct (tw_loop f (skipn off inp) 0 None 0) as [[s|] l] eqn:E; [|discriminate].
    apply tw_loop_slice in E. destruct E as [E1 E2]. rewrite E2 in H. rewrite skipn_len in *. inv H. lia.
  - intros inp off v k Ho H; unfold p_take_while_n_m in H. rewrite ps_input_ok in H by exact Ho.
    destruct (tw_loop f (skipn off inp) 0 None 0) as [[s|] l] eqn:E; [|discriminate].
    apply tw_loop_slice in E. destruct E as [E1 E2]. rewrite E2 in H. rewrite skipn_len in *.
    mdestr H. inv H. lia.
  - intros inp off v m Ho H; unfold p_take_till0 in H. rewrite ps_input_ok in H by exact Ho.
    destruct (tt_loop f (skipn off inp) 0) as [i [|]] eqn:E; apply tt_loop_inv in E; rewrite skipn_len in *.
    + destruct E as (_ & E & _). specialize (E eq_refl). mdestr H. inv H. lia.
    + inv H. lia.
  - intros inp off v m Ho H; unfold p_take_till1 in H. rewrite ps_input_ok in H by exact Ho.
    destruct (tt_loop f (skipn off inp) 0) as [i [|]] eqn:E; apply tt_loop_inv in E; rewrite skipn_len in *;
      [|discriminate].
    destruct E as (_ & E & _). specialize (E eq_refl). mdestr H. inv H. lia.
  - intros inp off v n Ho H; unfold p_collect in H. mdestr H; inv H; eauto.
  - intros inp off v n Ho H; unfold p_map_res in H.
    destruct (p inp off) eqn:Ep; try discriminate. destruct (f value).
    + inv H; eauto.
    + mdestr H.
  - intros inp off v n Ho H; unfold p_map_opt in H.
    destruct (p inp off) eqn:E; try discriminate. destruct (f value).
    + inv H; eauto.
    + mdestr H.
  - intros inp off v n Ho H; unfold p_discard in H. mdestr H; inv H; eauto.
  - exact IHHb.
  - exact IHHb.
  - intros inp off v n Ho H; unfold p_name in H. destruct (p inp off) eqn:E; try discriminate.
    + inv H; eauto.
    + destruct (is_custom error); discriminate.
  - intros inp off v n Ho H; unfold p_expect in H. destruct (p inp off) eqn:E; try discriminate.
    inv H; eauto.
  - intros inp off v n Ho H1; unfold p_last_offset in H1. mdestr H1; inv H1; eauto.
  - intros inp off v n Ho H1; unfold p_next_offset in H1. mdestr H1; inv H1; eauto.
  - intros inp off v n Ho H; unfold p_peek in H. mdestr H; inv H; lia.
  - intros inp off v n Ho H; unfold p_end in H. mdestr H; inv H; lia.
  - intros inp off v m Ho H; unfold p_skip in H. rewrite ps_input_ok in H by exact Ho.
    destruct (Nat.leb_spec n (length (skipn off inp))); [|discriminate].
    rewrite skipn_len in *. inv H. lia.
  - intros inp off v n Ho H; unfold p_skip_left in H.
    destruct (p inp off) as [a n1|e c| |] eqn:E; try discriminate.
    destruct (q inp (off + n1)) as [b n2|e c| |] eqn:E2; try discriminate.
    pose proof (IHHb1 _ _ _ _ Ho E) as G. pose proof (IHHb2 _ _ _ _ G E2). inv H. lia.
  - intros inp off v n Ho H; unfold p_skip_right in H.
    destruct (p inp off) as [a n1|e c| |] eqn:E; try discriminate.
    destruct (q inp (off + n1)) as [b n2|e c| |] eqn:E2; try discriminate.
    pose proof (IHHb1 _ _ _ _ Ho E) as G. pose proof (IHHb2 _ _ _ _ G E2). inv H. lia.
Qed.

(** ** Panic freedom (C02) *)
Lemma rep_loop_no_panic : forall I A B (p : parser I A) (sep : option (parser I B)) rend inp,
  bounded p -> no_panic p -> (forall s, sep = Some s -> bounded s /\ no_panic s) ->
  forall fuel cur items al, cur <= length inp -> rep_loop fuel p sep rend inp cur items al <> RPanic.
Proof.
  intros I A B p sep rend inp Hp Np Hs fuel.
  induction fuel as [|fuel IH]; intros cur items al Hc; cbn; [discriminate|].
  destruct (rep_stop rend (length items)); [discriminate|].
  destruct sep as [s|].
  - destruct (Hs s eq_refl) as [Bs Ns].
    destruct (s inp cur) as [v n|e c| |] eqn:Es; try discriminate.
    + pose proof (Bs _ _ _ _ Hc Es) as Hn.
      destruct (p inp (cur + n)) as [v' n'|e c| |] eqn:Ep; try discriminate.
      * pose proof (Hp _ _ _ _ Hn Ep). apply IH; lia.
      * now apply Np in Ep.
    + now apply Ns in Es.
  - destruct (p inp cur) as [v' n'|e c| |] eqn:Ep; try discriminate.
    + pose proof (Hp _ _ _ _ Hc Ep). apply IH; lia.
    + now apply Np in Ep.
Qed.

Lemma repeat_sep_fuel_no_panic : forall I A B (p : parser I A) r (sep : option (parser I B)) fuel,
  bounded p -> no_panic p -> (forall s, sep = Some s -> bounded s /\ no_panic s) ->
  no_panic (repeat_sep_fuel fuel p r sep).
Proof.
  intros I A B p r sep fuel Hp Np Hs inp off Ho H. unfold repeat_sep_fuel in H.
  assert (G : forall rr, rr <> RPanic -> (forall its al, rr = RDone its al -> off + al <= length inp) ->
              rep_finish (A := A) (rg_start r) inp off rr <> Panic).
  { intros rr H0 Hr Hf. unfold rep_finish in Hf. destruct rr as [its al| |]; try discriminate.
    - specialize (Hr _ _ eq_refl). rewrite (ps_input_ok _ Hr) in Hf.
      destruct (rg_start r); [destruct (length its <? n)|..]; discriminate.
    - congruence. }
  eapply G; [| |exact H].
  - destruct (p inp off) as [v0 n0|e c| |] eqn:Ep; try discriminate.
    + pose proof (Hp _ _ _ _ Ho Ep). apply rep_loop_no_panic; auto.
    + now apply Np in Ep.
  - intros its al Hr. destruct (p inp off) as [v0 n0|e c| |] eqn:Ep; try discriminate.
    + pose proof (Hp _ _ _ _ Ho Ep) as H0.
      assert (Hs' : forall s, sep = Some s -> bounded s) by (intros s E; now apply Hs).
      pose proof (rep_loop_bounded _ _ Hp Hs' _ _ _ H0 Hr). lia.
    + inv Hr. lia.
Qed.

Lemma rest_left1_fuel_no_panic : forall I A (p : parser I A) op,
  bounded p -> bounded op -> no_panic p -> no_panic op ->
  forall fuel x, no_panic (rest_left1_fuel fuel p op x).
Proof.
  intros I A p op Hp Hop Np Nop fuel. induction fuel as [|fuel IH]; intros x inp off Ho; cbn;
    [discriminate|].
  unfold p_or.
  destruct (op inp off) as [f n1|e c| |] eqn:Eop; try discriminate.
  - pose proof (Hop _ _ _ _ Ho Eop) as H1.
    destruct (p inp (off + n1)) as [y n2|e c| |] eqn:Ep; try discriminate.
    + pose proof (Hp _ _ _ _ H1 Ep) as H2.
      destruct (rest_left1_fuel fuel p op (f x y) inp (off + n1 + n2)) as [v3 n3|e c| |] eqn:Er;
        try discriminate; cbn.
      * destruct (cs_or c _); discriminate.
      * now apply IH in Er.
    + cbn. destruct (cs_or c _); discriminate.
    + now apply Np in Ep.
  - destruct c; discriminate.
  - now apply Nop in Eop.
Qed.

Theorem built_no_panic : forall I (leaf : forall A, parser I A -> Prop) ofs,
  (forall A (p : parser I A), leaf A p -> bounded p /\ no_panic p) ->
  forall A (p : parser I A), built leaf ofs false p -> no_panic p.
Proof.
  intros I leaf ofs Hleaf A p Hb.
  assert (HB : forall A (p : parser I A), built leaf ofs false p -> bounded p).
  { intros. eapply built_bounded; [|eassumption]. intros; now apply Hleaf. }
  induction Hb; intros inp off Ho.
  - now apply Hleaf.
  - discriminate.
  - discriminate.
  - discriminate.
  - discriminate.
  - unfold p_failed_lazy. destruct (f tt). discriminate.
  - unfold p_filter. pose proof (IHHb _ _ Ho). destruct (p inp off); try congruence.
    destruct (f value); discriminate.
  - unfold p_flat_map. pose proof (IHHb _ _ Ho). destruct (p inp off) eqn:E; try congruence.
    apply HB in E; auto. pose proof (H0 value _ _ E). destruct (f value inp (off + len)); cbn; congruence.
  - unfold p_map. pose proof (IHHb _ _ Ho). destruct (p inp off); congruence.
  - discriminate.
  - unfold p_exists. pose proof (IHHb _ _ Ho). destruct (p inp off); congruence.
  - unfold p_not. pose proof (IHHb _ _ Ho). destruct (p inp off); try congruence.
    rewrite Nat.add_0_r, ps_input_ok by exact Ho. discriminate.
  - unfold p_or. pose proof (IHHb1 _ _ Ho). pose proof (IHHb2 _ _ Ho).
    destruct (p inp off); try congruence. destruct committed; cbn; congruence.
  - unfold p_and. pose proof (IHHb1 _ _ Ho). destruct (p inp off) eqn:E; try congruence.
    apply HB in E; auto. pose proof (IHHb2 _ _ E). destruct (q inp (off + len)); congruence.
  - unfold p_attempt. pose proof (IHHb _ _ Ho). destruct (p inp off); cbn; try congruence.
    destruct committed; discriminate.
  - unfold p_rest_left1. apply rest_left1_fuel_no_panic; auto.
  - unfold p_repeat_sep. apply repeat_sep_fuel_no_panic; auto. intros s0 Es; inv Es; auto.
  - unfold p_repeat_sep. apply repeat_sep_fuel_no_panic; auto. intros s0 Es; inv Es.
  - unfold p_seq. rewrite ps_input_ok by exact Ho. apply seq_loop_np.
  - unfold p_tag_by. rewrite ps_input_ok by exact Ho. apply tag_loop_np.
  - unfold p_tag_no_case_by. rewrite ps_input_ok by exact Ho. apply tag_no_case_loop_np.
  - unfold p_elm_pred_ref. rewrite ps_input_ok by exact Ho.
    destruct (skipn off inp); [discriminate|]. destruct (f i); discriminate.
  - unfold p_elm_ref_of. rewrite ps_input_ok by exact Ho.
    destruct (skipn off inp); [discriminate|]. destruct (f i); discriminate.
  - unfold p_none_ref_of. rewrite ps_input_ok by exact Ho.
    destruct (skipn off inp); [discriminate|]. destruct (f i); discriminate.
  - unfold p_take. rewrite ps_input_ok by exact Ho.
    destruct (Nat.leb_spec n (length (skipn off inp))); [|discriminate].
    rewrite skipn_len in *. rewrite slice_with_len_ok by lia. discriminate.
  - unfold p_take_while0. rewrite ps_input_ok by exact Ho.
    destruct (tw_loop f (skipn off inp) 0 None 0) as [[s|] l] eqn:E.
    + apply tw_loop_slice in E. destruct E as [E1 E2]. rewrite E2. discriminate.
    + rewrite slice_with_len_ok by lia. discriminate.
  - unfold p_take_while1. rewrite ps_input_ok by exact Ho.
    destruct (tw_loop f (skipn off inp) 0 None 0) as [[s|] l] eqn:E; [|discriminate].
    apply tw_loop_slice in E. destruct E as [E1 E2]. rewrite E2. discriminate.
  - unfold p_take_while_n_m. rewrite ps_input_ok by exact Ho.
    destruct (tw_loop f (skipn off inp) 0 None 0) as [[s|] l] eqn:E; [|discriminate].
    apply tw_loop_slice in E. destruct E as [E1 E2]. rewrite E2.
    destruct (_ && _); discriminate.
  - unfold p_take_till0. rewrite ps_input_ok by exact Ho.
    destruct (tt_loop f (skipn off inp) 0) as [i [|]] eqn:E; apply tt_loop_inv in E; rewrite skipn_len in *.
    + destruct E as (_ & E & _). specialize (E eq_refl). rewrite slice_with_len_ok by lia. discriminate.
    + discriminate.
  - unfold p_take_till1. rewrite ps_input_ok by exact Ho.
    destruct (tt_loop f (skipn off inp) 0) as [i [|]] eqn:E; apply tt_loop_inv in E; rewrite skipn_len in *.
    + destruct E as (_ & E & _). specialize (E eq_refl). rewrite slice_with_len_ok by lia. discriminate.
    + discriminate.
  - unfold p_collect. pose proof (IHHb _ _ Ho). destruct (p inp off) eqn:E; try congruence.
    apply HB in E; auto. rewrite slice_with_len_ok by lia. discriminate.
  - unfold p_map_res. pose proof (IHHb _ _ Ho). destruct (p inp off) eqn:Ep; try congruence.
    rewrite ps_input_ok by exact Ho. destruct (f value); discriminate.
  - unfold p_map_opt. pose proof (IHHb _ _ Ho). destruct (p inp off) eqn:E; try congruence.
    rewrite ps_input_ok by exact Ho. destruct (f value); discriminate.
  - unfold p_discard. pose proof (IHHb _ _ Ho). destruct (p inp off); congruence.
  - exact (IHHb _ _ Ho).
  - exact (IHHb _ _ Ho).
  - unfold p_name. pose proof (IHHb _ _ Ho). destruct (p inp off); try congruence.
    destruct (is_custom error); discriminate.
  - unfold p_expect. pose proof (IHHb _ _ Ho). destruct (p inp off); congruence.
  - unfold p_last_offset. pose proof (IHHb _ _ Ho). destruct (p inp off); congruence.
  - unfold p_next_offset. pose proof (IHHb _ _ Ho). destruct (p inp off); congruence.
  - unfold p_peek. pose proof (IHHb _ _ Ho). destruct (p inp off); congruence.
  - unfold p_end. rewrite ps_input_ok by exact Ho. destruct (skipn off inp); discriminate.
  - unfold p_skip. rewrite ps_input_ok by exact Ho.
    destruct (n <=? length (skipn off inp)); discriminate.
  - unfold p_skip_left. pose proof (IHHb1 _ _ Ho). destruct (p inp off) eqn:E; try congruence.
    apply HB in E; auto. pose proof (IHHb2 _ _ E). destruct (q inp (off + len)); congruence.
  - unfold p_skip_right. pose proof (IHHb1 _ _ Ho). destruct (p inp off) eqn:E; try congruence.
    apply HB in E; auto. pose proof (IHHb2 _ _ E). destruct (q inp (off + len)); cbn; congruence.
Qed.

(** ** Tactic: membership of a concrete grammar in the closure *)
Ltac head_of t := lazymatch t with ?f _ => head_of f | _ => t end.
Ltac build_step :=
  lazymatch goal with
  | |- built _ _ _ ?p =>
    lazymatch p with
    | p_diverge => apply B_diverge
    | p_successful _ => apply B_successful
    | p_successful_lazy _ => apply B_successful_lazy
    | p_failed _ _ => apply B_failed
    | p_failed_lazy _ => apply B_failed_lazy
    | p_filter _ _ => apply B_filter
    | p_flat_map _ _ => apply B_flat_map
    | p_map _ _ => apply B_map
    | p_map_panic _ _ => apply B_map_panic; [reflexivity|]
    | p_exists _ => apply B_exists
    | p_not _ => apply B_not
    | p_or _ _ => apply B_or
    | p_and _ _ => apply B_and
    | p_attempt _ => apply B_attempt
    | p_rest_left1 _ _ _ => apply B_rest_left1
    | p_repeat_sep _ _ (Some _) => apply B_repeat_sep
    | p_repeat_sep _ _ None => apply B_repeat_nosep
    | p_seq _ _ => apply B_seq
    | p_tag_by _ _ => apply B_tag
    | p_tag_no_case_by _ _ => apply B_tag_no_case
    | p_elm_pred_ref _ => apply B_elm_pred_ref
    | p_elm_ref_of _ => apply B_elm_ref_of
    | p_none_ref_of _ => apply B_none_ref_of
    | p_take _ => apply B_take
    | p_take_while0 _ => apply B_take_while0
    | p_take_while1 _ => apply B_take_while1
    | p_take_while_n_m _ _ _ => apply B_take_while_n_m
    | p_take_till0 _ => apply B_take_till0
    | p_take_till1 _ => apply B_take_till1
    | p_collect _ => apply B_collect
    | p_map_res _ _ => apply B_map_res
    | p_map_opt _ _ => apply B_map_opt
    | p_discard _ => apply B_discard
    | p_lazy _ => apply B_lazy
    | p_log_map _ _ => apply B_log_map
    | p_name _ _ => apply B_name
    | p_expect _ _ => apply B_expect
    | p_last_offset _ => apply B_last_offset; [reflexivity|]
    | p_next_offset _ => apply B_next_offset; [reflexivity|]
    | p_peek _ => apply B_peek
    | p_end => apply B_end
    | p_skip _ => apply B_skip
    | p_skip_left _ _ => apply B_skip_left
    | p_skip_right _ _ => apply B_skip_right
    | _ => first [ assumption | let h := head_of p in progress unfold h ]
    end
  | |- forall _, _ => intro
  end.
Ltac build := repeat (build_step; cbv beta).
