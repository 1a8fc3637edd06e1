(** Total-correctness triples for parsers: on every position inside the input the run returns, and on success the value
    and the consumed text satisfy Q. *)
From Verif Require Import Base Core Comb Closure RepFacts LitFacts.
Set Implicit Arguments.

Definition hoare {I A} (p : parser I A) (Q : A -> list I -> Prop) : Prop :=
  forall inp off, off <= length inp ->
  match p inp off with
  | Success v n => off + n <= length inp /\ Q v (firstn n (skipn off inp))
  | Failure _ _ => True
  | Panic | Diverge => False
  end.

Lemma h_success : forall I A (p : parser I A) Q inp off v n,
  hoare p Q -> off <= length inp -> p inp off = Success v n ->
  off + n <= length inp /\ Q v (firstn n (skipn off inp)).
Proof. intros I A p Q inp off v n H Ho E. specialize (H inp off Ho). now rewrite E in H. Qed.
Arguments h_success {I A p Q inp off v n} _ _ _.
Lemma h_bounded : forall I A (p : parser I A) Q, hoare p Q -> bounded p.
Proof. intros I A p Q H inp off v n Ho E. now apply (h_success H Ho) in E. Qed.
Lemma h_returns : forall I A (p : parser I A) Q, hoare p Q -> forall inp off, off <= length inp ->
  p inp off <> Panic /\ p inp off <> Diverge.
Proof. intros I A p Q H inp off Ho. specialize (H inp off Ho). destruct (p inp off); split; congruence || tauto. Qed.

(** Start a rule: run the premise [H] at the current position. *)
Ltac hrun H inp off Ho a n :=
    let L := fresh "L" in pose proof (H inp off Ho) as L;
  match type of L with match ?x with _ => _ end => destruct x as [a n|? ?| |] eqn:? end;
  try (exact L || exact Logic.I || tauto).

Section Rules.
Context {I : Type}.

Lemma h_weaken : forall A (p : parser I A) (Q R : A -> list I -> Prop),
  hoare p Q -> (forall v s, Q v s -> R v s) -> hoare p R.
Proof. intros A p Q R H HQ inp off Ho. hrun H inp off Ho a n. destruct L. auto. Qed.

Lemma h_successful : forall A (v : A) (Q : A -> list I -> Prop), Q v [] -> hoare (p_successful v) Q.
Proof. intros A v Q H inp off Ho. cbn. split; [lia|exact H]. Qed.
Lemma h_failed : forall A (Q : A -> list I -> Prop) e c, hoare (p_failed e c) Q.
Proof. intros A Q e c inp off Ho. exact Logic.I. Qed.
Lemma h_map : forall A B (p : parser I A) (f : A -> B) Q (R : B -> list I -> Prop),
  hoare p Q -> (forall v s, Q v s -> R (f v) s) -> hoare (p_map p f) R.
Proof.
  intros A B p f Q R H HQ inp off Ho. unfold p_map. hrun H inp off Ho a n. destruct L. auto.
Qed.
Lemma h_map_panic : forall A B (p : parser I A) (f : A -> option B) Q (R : B -> list I -> Prop),
  hoare p Q -> (forall v s, Q v s -> exists b, f v = Some b /\ R b s) -> hoare (p_map_panic p f) R.
Proof.
  intros A B p f Q R H HQ inp off Ho. unfold p_map_panic. hrun H inp off Ho a n. destruct L as [L1 L2].
  destruct (HQ _ _ L2) as (b & -> & Hb). auto.
Qed.
Lemma h_map_res : forall A B E (p : parser I A) (f : A -> B + E) Q (R : B -> list I -> Prop),
  hoare p Q -> (forall v s b, Q v s -> f v = inl b -> R b s) -> hoare (p_map_res p f) R.
Proof.
  intros A B E p f Q R H HQ inp off Ho. unfold p_map_res. hrun H inp off Ho a n. destruct L as [L1 L2].
  destruct (f a) as [b|err] eqn:Ef; [eauto|]. rewrite ps_input_ok by lia. exact Logic.I.
Qed.
Lemma h_map_opt : forall A B (p : parser I A) (f : A -> option B) Q (R : B -> list I -> Prop),
  hoare p Q -> (forall v s b, Q v s -> f v = Some b -> R b s) -> hoare (p_map_opt p f) R.
Proof.
  intros A B p f Q R H HQ inp off Ho. unfold p_map_opt. hrun H inp off Ho a n. destruct L as [L1 L2].
  destruct (f a) as [b|] eqn:Ef; [eauto|]. rewrite ps_input_ok by lia. exact Logic.I.
Qed.
Lemma h_filter : forall A (p : parser I A) f Q (R : A -> list I -> Prop),
  hoare p Q -> (forall v s, Q v s -> f v = true -> R v s) -> hoare (p_filter p f) R.
Proof.
  intros A p f Q R H HQ inp off Ho. unfold p_filter. hrun H inp off Ho a n. destruct L as [L1 L2].
  destruct (f a) eqn:Ef; [auto|exact Logic.I].
Qed.
Lemma h_or : forall A (p q : parser I A) Q, hoare p Q -> hoare q Q -> hoare (p_or p q) Q.
Proof.
  intros A p q Q H1 H2 inp off Ho. unfold p_or. hrun H1 inp off Ho a n.
  match goal with |- context [negb ?b] => destruct (negb b) end; [apply (H2 inp off Ho)|exact Logic.I].
Qed.
Lemma h_attempt : forall A (p : parser I A) Q, hoare p Q -> hoare (p_attempt p) Q.
Proof. intros A p Q H inp off Ho. unfold p_attempt. hrun H inp off Ho a n. destruct committed; exact Logic.I. Qed.

Lemma firstn_split : forall (l : list I) off n m,
  firstn (n + m) (skipn off l) = firstn n (skipn off l) ++ firstn m (skipn (off + n) l).
Proof. intros l off n m. rewrite <- skipn_skipn'. symmetry. apply firstn_skipn_app. Qed.

Lemma h_and : forall A B (p : parser I A) (q : parser I B) P Q (R : A * B -> list I -> Prop),
  hoare p P -> hoare q Q -> (forall a b s t, P a s -> Q b t -> R (a, b) (s ++ t)) -> hoare (p_and p q) R.
Proof.
  intros A B p q P Q R H1 H2 HR inp off Ho. unfold p_and. hrun H1 inp off Ho a n. destruct L as [L1 L2].
  hrun H2 inp (off + n) L1 b m. destruct L as [L3 L4]. split; [lia|]. rewrite firstn_split. auto.
Qed.
Lemma h_flat_map : forall A B (p : parser I A) (f : A -> parser I B) P (R : B -> list I -> Prop),
  hoare p P -> (forall a s, P a s -> hoare (f a) (fun b t => R b (s ++ t))) -> hoare (p_flat_map p f) R.
Proof.
  intros A B p f P R H1 H2 inp off Ho. unfold p_flat_map. hrun H1 inp off Ho a n. destruct L as [L1 L2].
  pose proof (H2 _ _ L2 inp (off + n) L1) as L. destruct (f a inp (off + n)); cbn; try exact L; try tauto.
  destruct L as [L3 L4]. split; [lia|]. match goal with |- context [firstn (?x + ?y)] => first [rewrite (Nat.add_comm x y), firstn_split; exact L4|rewrite firstn_split; exact L4] end.
Qed.
Lemma h_skip_left : forall A B (p : parser I A) (q : parser I B) P Q (R : B -> list I -> Prop),
  hoare p P -> hoare q Q -> (forall a b s t, P a s -> Q b t -> R b (s ++ t)) -> hoare (p_skip_left p q) R.
Proof.
  intros A B p q P Q R H1 H2 HR inp off Ho. unfold p_skip_left. hrun H1 inp off Ho a n. destruct L as [L1 L2].
  hrun H2 inp (off + n) L1 b m. destruct L as [L3 L4]. split; [lia|]. rewrite firstn_split. eauto.
Qed.
Lemma h_skip_right : forall A B (p : parser I A) (q : parser I B) P Q (R : A -> list I -> Prop),
  hoare p P -> hoare q Q -> (forall a b s t, P a s -> Q b t -> R a (s ++ t)) -> hoare (p_skip_right p q) R.
Proof.
  intros A B p q P Q R H1 H2 HR inp off Ho. unfold p_skip_right. hrun H1 inp off Ho a n. destruct L as [L1 L2].
  hrun H2 inp (off + n) L1 b m. destruct L as [L3 L4]. split; [lia|]. rewrite firstn_split. eauto.
Qed.
Lemma h_surround : forall A B C (l : parser I A) (p : parser I B) (r : parser I C) L P R (Q : B -> list I -> Prop),
  hoare l L -> hoare p P -> hoare r R ->
  (forall a b c s t u, L a s -> P b t -> R c u -> Q b (s ++ t ++ u)) -> hoare (p_surround l p r) Q.
Proof.
  intros A B C l p r L P R Q Hl Hp Hr HQ. unfold p_surround.
  first
  [ eapply h_skip_left with (Q := fun b w => exists c t u, P b t /\ R c u /\ w = t ++ u);
    [exact Hl|eapply h_skip_right; [exact Hp|exact Hr|]; cbn; eauto 10|];
    cbn; intros a b s w Ha (c & t & u & H1 & H2 & ->); eauto
  | eapply h_skip_right with (P := fun b w => exists a s t, L a s /\ P b t /\ w = s ++ t);
    [eapply h_skip_left; [exact Hl|exact Hp|]; cbn; eauto 10|exact Hr|];
    cbn; intros b c w u (a & s & t & H1 & H2 & ->) Hc; rewrite <- app_assoc; eauto ].
Qed.
Lemma h_opt : forall A (p : parser I A) P (R : option A -> list I -> Prop),
  hoare p P -> (forall v s, P v s -> R (Some v) s) -> R None [] -> hoare (p_opt p) R.
Proof.
  intros A p P R H H1 H2. unfold p_opt. apply h_or.
  - eapply h_attempt || idtac. all: try (eapply h_map; [|exact H1]; first [exact H|apply h_attempt; exact H]).
  - apply h_successful. exact H2.
Qed.
Lemma h_lazy : forall A (f : unit -> parser I A) Q, hoare (f tt) Q -> hoare (p_lazy f) Q.
Proof. intros A f Q H. exact H. Qed.
Lemma h_log_map : forall A B (p : parser I A) (g : outcome I A -> B) Q, hoare p Q -> hoare (p_log_map p g) Q.
Proof. intros A B p g Q H inp off Ho. unfold p_log_map. hrun H inp off Ho a n. Qed.
Lemma h_name : forall A (p : parser I A) nm Q, hoare p Q -> hoare (p_name p nm) Q.
Proof. intros A p nm Q H inp off Ho. unfold p_name. hrun H inp off Ho a n. match goal with |- context [is_custom ?e] => destruct (is_custom e) end; exact Logic.I. Qed.
Lemma h_discard : forall A (p : parser I A) Q (R : unit -> list I -> Prop),
  hoare p Q -> (forall v s, Q v s -> R tt s) -> hoare (p_discard p) R.
Proof. intros A p Q R H HR inp off Ho. unfold p_discard. hrun H inp off Ho a n. destruct L; eauto. Qed.
Lemma h_collect : forall A (p : parser I A) Q (R : list I -> list I -> Prop),
  hoare p Q -> (forall v s, Q v s -> R s s) -> hoare (p_collect p) R.
Proof.
  intros A p Q R H HR inp off Ho. unfold p_collect. hrun H inp off Ho a n. destruct L as [L1 L2].
  rewrite slice_with_len_ok by exact L1. eauto.
Qed.
Lemma h_peek : forall A (p : parser I A) Q (R : A -> list I -> Prop),
  hoare p Q -> (forall v s, Q v s -> R v []) -> hoare (p_peek p) R.
Proof. intros A p Q R H HR inp off Ho. unfold p_peek. hrun H inp off Ho a n. destruct L. split; [lia|]. cbn. eauto. Qed.
Lemma h_not : forall A (p : parser I A) Q (R : unit -> list I -> Prop), hoare p Q -> R tt [] -> hoare (p_not p) R.
Proof.
  intros A p Q R H HR inp off Ho. unfold p_not. hrun H inp off Ho a n.
  - rewrite ps_input_ok by lia. exact Logic.I.
  - split; [lia|exact HR].
Qed.
Lemma h_exists : forall A (p : parser I A) Q (R : bool -> list I -> Prop),
  hoare p Q -> R true [] -> R false [] -> hoare (p_exists p) R.
Proof.
  intros A p Q R H H1 H2 inp off Ho. unfold p_exists. hrun H inp off Ho a n; (split; [lia|assumption]).
Qed.
Lemma h_end : forall (R : unit -> list I -> Prop), R tt [] -> hoare p_end R.
Proof.
  intros R H inp off Ho. unfold p_end. rewrite ps_input_ok by exact Ho.
  destruct (skipn off inp); cbn; [split; [lia|exact H]|exact Logic.I].
Qed.

Lemma h_elm_pred_ref : forall f (R : I -> list I -> Prop), (forall x, f x = true -> R x [x]) -> hoare (p_elm_pred_ref f) R.
Proof.
  intros f R H inp off Ho. unfold p_elm_pred_ref. rewrite ps_input_ok by exact Ho.
  destruct (skipn off inp) as [|x r] eqn:E; cbn; [exact Logic.I|].
  destruct (f x) eqn:Ef; [|exact Logic.I]. apply skipn_cons_nth in E. split; [lia|apply H, Ef].
Qed.
Lemma h_elm_pred : forall f (R : I -> list I -> Prop), (forall x, f x = true -> R x [x]) -> hoare (p_elm_pred f) R.
Proof. intros f R H. unfold p_elm_pred. eapply h_map; [apply (h_elm_pred_ref f R H)|auto]. Qed.
Lemma h_elm_of_set : forall f (R : I -> list I -> Prop), (forall x, f x = true -> R x [x]) -> hoare (p_elm_of_set f) R.
Proof.
  intros f R H inp off Ho. destruct (elm_of_set_spec f inp Ho) as [(x & H1 & H2 & ->)|(_ & e & ->)]; [|exact Logic.I].
  assert (L : off < length inp) by (apply nth_error_Some; congruence).
  assert (E : skipn off inp = x :: skipn (S off) inp).
  { clear -H1. revert inp H1. induction off as [|o IH]; intros [|y l] H1; try discriminate; cbn in *; [congruence|].
    now apply IH. }
  rewrite E. cbn. split; [lia|auto].
Qed.
Lemma h_elm_ref_of : forall f (R : I -> list I -> Prop), (forall x, f x = true -> R x [x]) -> hoare (p_elm_ref_of f) R.
Proof.
  intros f R H inp off Ho. pose proof (@h_elm_of_set f R H inp off Ho) as K. unfold p_elm_of_set, p_map in K.
  destruct (p_elm_ref_of f inp off); exact K.
Qed.
Lemma h_none_of_set : forall f (R : I -> list I -> Prop), (forall x, f x = false -> R x [x]) -> hoare (p_none_of_set f) R.
Proof.
  intros f R H inp off Ho. destruct (none_of_set_spec f inp Ho) as [(x & H1 & H2 & ->)|(_ & e & ->)]; [|exact Logic.I].
  assert (L : off < length inp) by (apply nth_error_Some; congruence).
  assert (E : skipn off inp = x :: skipn (S off) inp).
  { clear -H1. revert inp H1. induction off as [|o IH]; intros [|y l] H1; try discriminate; cbn in *; [congruence|].
    now apply IH. }
  rewrite E. cbn. split; [lia|auto].
Qed.

(** [Items Q vs s]: s is the concatenation of texts, the i-th satisfying Q with the i-th value. *)
Inductive Items {A} (Q : A -> list I -> Prop) : list A -> list I -> Prop :=
| it_nil : Items Q [] []
| it_cons : forall v s vs t, Q v s -> Items Q vs t -> Items Q (v :: vs) (s ++ t).
(** [SepItems Q S vs s]: the same with separators between the items, and [Tail]: separator item separator item ... *)
Inductive SepTail {A B} (Q : A -> list I -> Prop) (S : B -> list I -> Prop) : list A -> list I -> Prop :=
| st_nil : SepTail Q S [] []
| st_dangling : forall w t, S w t -> SepTail Q S [] t
| st_cons : forall w t v s vs u, S w t -> Q v s -> SepTail Q S vs u -> SepTail Q S (v :: vs) (t ++ s ++ u).

Lemma steps_items : forall A (p : parser I A) Q inp pos vs l,
  hoare p Q -> steps p inp pos vs l -> pos <= length inp ->
  pos + l <= length inp /\ Items Q vs (firstn l (skipn pos inp)).
Proof.
  intros A p Q inp pos vs l Hp H. induction H as [pos|pos v n vs m H H' IH]; intros Ho.
  - split; [lia|constructor].
  - destruct (h_success Hp Ho H) as [B1 Hq]. destruct (IH B1) as [B2 Hi]. split; [lia|].
    rewrite firstn_split. now constructor.
Qed.

Lemma no_diverge_loop : forall A B (p : parser I A) (sep : parser I B) Q S inp,
  hoare p Q -> hoare sep S -> (forall v s w t, Q v s -> S w t -> t ++ s <> []) ->
  forall pos w m v n, pos <= length inp -> sep inp pos = Success w m -> p inp (pos + m) = Success v n -> 0 < m + n.
Proof.
  intros A B p sep Q S inp Hp Hs Hn pos w m v n Ho E1 E2.
  destruct (h_success Hs Ho E1) as [B1 S1]. destruct (h_success Hp B1 E2) as [B2 Q2].
  specialize (Hn _ _ _ _ Q2 S1). destruct m; [|lia]. destruct n; [|lia]. cbn in Hn. congruence.
Qed.

Lemma rep_loop_no_panic : forall A B (p : parser I A) (sep : parser I B) Q S rend inp,
  hoare p Q -> hoare sep S ->
  forall fuel cur items al, cur <= length inp -> rep_loop fuel p (Some sep) rend inp cur items al <> RPanic.
Proof.
  intros A B p sep Q S rend inp Hp Hs fuel. induction fuel as [|fuel IH]; intros cur items al Hc; [discriminate|].
  rewrite rep_loop_step. destruct (rep_stop rend (length items)); [discriminate|].
  pose proof (Hs inp cur Hc) as Ls. destruct (sep inp cur) as [w m|e c| |] eqn:E1; try discriminate; try tauto.
  destruct Ls as [B1 _]. pose proof (Hp inp _ B1) as Lp. destruct (p inp (cur + m)) as [v n|e c| |] eqn:E2; try discriminate; try tauto.
  destruct Lp as [B2 _]. apply IH. lia.
Qed.

(** Repetition with a separator; the texts between items must not be empty when there is no upper bound. *)
Lemma h_repeat_sep : forall A B (p : parser I A) (sep : parser I B) r Q S (R : list A -> list I -> Prop),
  hoare p Q -> hoare sep S -> (forall v s w t, Q v s -> S w t -> t ++ s <> []) ->
  (min_ok (rg_start r) 0 -> R [] []) ->
  (forall v s vs t, Q v s -> SepTail Q S vs t -> min_ok (rg_start r) (length (v :: vs)) -> R (v :: vs) (s ++ t)) ->
  hoare (p_repeat_sep p r (Some sep)) R.
Proof.
  intros A B p sep r Q S R Hp Hs Hn R0 R1 inp off Ho.
  pose proof (h_bounded Hp) as Bp. pose proof (h_bounded Hs) as Bs.
  assert (Tl : forall cur count vs k, tail p sep (rg_end r) inp cur count vs k -> cur <= length inp ->
    cur + k <= length inp /\ SepTail Q S vs (firstn k (skipn cur inp))).
  { intros cur count vs k H. induction H; intros Hc.
    - split; [lia|constructor].
    - split; [lia|constructor].
    - destruct (h_success Hs Hc H0). split; [lia|]. eapply st_dangling; eassumption.
    - destruct (h_success Hs Hc H0) as [B1 S1]. destruct (h_success Hp B1 H1) as [B2 Q2].
      destruct (IHtail B2) as [B3 T3]. split; [lia|].
      rewrite !firstn_split, <- app_assoc, Nat.add_assoc. econstructor; eassumption. }
  destruct (p_repeat_sep p r (Some sep) inp off) as [vs l|e c| |] eqn:E.
  - apply repeat_sep_success in E; try assumption. destruct E as [E Hm]. destruct E as [E|v n vs k E Ht].
    + split; [lia|]. apply R0, Hm.
    + destruct (h_success Hp Ho E) as [B1 Q1]. destruct (Tl _ _ _ _ Ht B1) as [B2 T2]. split; [lia|].
      rewrite firstn_split. now apply R1.
  - exact Logic.I.
  - unfold p_repeat_sep, repeat_sep_fuel in E.
    assert (G : forall rr : rep_result A, rr <> RPanic -> (forall its al, rr = RDone its al -> off + al <= length inp) ->
      rep_finish (I := I) (rg_start r) inp off rr <> Panic).
    { intros rr G1 G2 GE. destruct rr as [its al| |]; cbn [rep_finish] in GE; try discriminate; [|congruence].
      destruct (rg_start r); try discriminate. destruct (_ <? _); [|discriminate].
      rewrite ps_input_ok in GE by (apply (G2 its al eq_refl)). discriminate. }
    revert E. apply G.
    + pose proof (Hp inp off Ho) as Lp. destruct (p inp off) as [v n|e c| |]; try discriminate; try tauto.
      destruct Lp as [B1 _]. eapply rep_loop_no_panic; eassumption.
    + intros its al E. pose proof (Hp inp off Ho) as Lp. destruct (p inp off) as [v n|e c| |] eqn:Ep; try discriminate; try tauto.
      * destruct Lp as [B1 _]. apply rep_loop_sound in E. destruct E as (vs & k & _ & -> & T).
        destruct (Tl _ _ _ _ T B1). lia.
      * inv E. lia.
  - unfold p_repeat_sep, repeat_sep_fuel in E.
    assert (G : forall rr : rep_result A, rr <> RDiverge -> rep_finish (I := I) (rg_start r) inp off rr <> Diverge).
    { intros rr G1 GE. destruct rr as [its al| |]; cbn [rep_finish] in GE; try discriminate; [|congruence].
      destruct (rg_start r); try discriminate. destruct (_ <? _); [|discriminate].
      destruct (ps_input _ _); discriminate. }
    revert E. apply G. pose proof (Hp inp off Ho) as Lp.
    destruct (p inp off) as [v n|e c| |]; try discriminate; try tauto. destruct Lp as [B1 _].
    unfold rep_fuel. apply rep_loop_terminates; auto.
    + intros pos Hpos Ed. pose proof (Hp inp pos Hpos). now rewrite Ed in *.
    + intros pos Hpos Ed. pose proof (Hs inp pos Hpos). now rewrite Ed in *.
    + intros _ pos w m v' n' Hpos E1 E2. exact (no_diverge_loop inp Hp Hs Hn Hpos E1 E2).
    + cbn [List.length]. lia.
Qed.
Lemma septail_unit : forall A (Q : A -> list I -> Prop) vs t,
  SepTail Q (fun (_ : unit) s => s = []) vs t -> Items Q vs t.
Proof. intros A Q vs t H. induction H; subst; cbn; constructor; auto. Qed.

Lemma h_repeat_nosep : forall A B (p : parser I A) r Q (R : list A -> list I -> Prop),
  hoare p Q -> (forall v s, Q v s -> s <> []) ->
  (forall vs s, Items Q vs s -> min_ok (rg_start r) (length vs) -> R vs s) ->
  hoare (p_repeat_sep p r (None : option (parser I B))) R.
Proof.
  intros A B p r Q R Hp Hn HR inp off Ho.
  assert (E : p_repeat_sep p r (None : option (parser I B)) inp off = p_repeat_sep p r (Some (p_successful tt)) inp off).
  { unfold p_repeat_sep. apply repeat_none. }
  rewrite E. revert inp off Ho E. intros inp off Ho _.
  refine (@h_repeat_sep A unit p (p_successful tt) r Q (fun _ s => s = []) R Hp _ _ _ _ inp off Ho).
  - apply h_successful. reflexivity.
  - intros v s w t HQ ->. apply (Hn _ _ HQ).
  - intros Hm. apply HR; [constructor|exact Hm].
  - intros v s vs t HQ HT Hm. apply HR; [|exact Hm]. constructor; [exact HQ|]. now apply septail_unit.
Qed.
Lemma h_many0 : forall A (p : parser I A) Q (R : list A -> list I -> Prop),
  hoare p Q -> (forall v s, Q v s -> s <> []) -> (forall vs s, Items Q vs s -> R vs s) -> hoare (p_many0 p) R.
Proof. intros A p Q R H1 H2 H3. eapply h_repeat_nosep; eauto. Qed.
Lemma h_many1 : forall A (p : parser I A) Q (R : list A -> list I -> Prop),
  hoare p Q -> (forall v s, Q v s -> s <> []) -> (forall vs s, Items Q vs s -> vs <> [] -> R vs s) -> hoare (p_many1 p) R.
Proof.
  intros A p Q R H1 H2 H3. eapply h_repeat_nosep; eauto. intros vs s Hi Hm. apply H3; [exact Hi|].
  cbn in Hm. destruct vs; [cbn in Hm; lia|discriminate].
Qed.
(** Repetition between n and m times. *)
Lemma tail_upper : forall A B (p : parser I A) (sep : parser I B) m inp cur count vs k,
  tail p sep (BIncluded m) inp cur count vs k -> count <= m -> count + length vs <= m.
Proof.
  intros A B p sep m inp cur count vs k H. remember (BIncluded m) as r eqn:Er. induction H; intros Hc; subst; cbn [List.length] in *; try lia.
  cbn in H. specialize (IHtail ltac:(lia)). lia.
Qed.
Lemma h_repeat_max : forall A (p : parser I A) n m Q (R : list A -> list I -> Prop),
  hoare p Q -> (forall v s, Q v s -> s <> []) -> 1 <= m ->
  (forall vs s, Items Q vs s -> n <= length vs <= m -> R vs s) -> hoare (p_repeat p (rg_in n m)) R.
Proof.
  intros A p n m Q R Hp Hn Hm HR inp off Ho.
  assert (H : hoare (p_repeat p (rg_in n m)) (fun vs s => Items Q vs s /\ n <= length vs)).
  { eapply h_repeat_nosep; [exact Hp|exact Hn|]. intros vs s Hi Hl. split; [exact Hi|exact Hl]. }
  specialize (H inp off Ho). destruct (p_repeat p (rg_in n m) inp off) as [vs l|e c| |] eqn:E; try exact H.
  destruct H as (H1 & H2 & H3). split; [exact H1|]. apply HR; [exact H2|]. split; [exact H3|].
  assert (E2 : p_repeat_sep p (rg_in n m) (Some (p_successful tt)) inp off = Success vs l).
  { rewrite <- E. unfold p_repeat, p_repeat_sep. symmetry. apply repeat_none. }
  apply repeat_sep_success in E2.
  - destruct E2 as [[|v k vs' k' _ Ht] _]; cbn [List.length]; [lia|]. apply tail_upper in Ht; [exact Ht|exact Hm].
  - eapply h_bounded. exact Hp.
  - eapply h_bounded. apply h_successful with (Q := fun _ _ => True). exact Logic.I.
  - exact Ho.
Qed.
Lemma h_many1_sep : forall A B (p : parser I A) (sep : parser I B) Q S (R : list A -> list I -> Prop),
  hoare p Q -> hoare sep S -> (forall v s w t, Q v s -> S w t -> t ++ s <> []) ->
  (forall v s vs t, Q v s -> SepTail Q S vs t -> R (v :: vs) (s ++ t)) -> hoare (p_many1_sep p sep) R.
Proof.
  intros A B p sep Q S R H1 H2 H3 H4. eapply h_repeat_sep; eauto. cbn. lia.
Qed.
Lemma h_many0_sep : forall A B (p : parser I A) (sep : parser I B) Q S (R : list A -> list I -> Prop),
  hoare p Q -> hoare sep S -> (forall v s w t, Q v s -> S w t -> t ++ s <> []) ->
  R [] [] -> (forall v s vs t, Q v s -> SepTail Q S vs t -> R (v :: vs) (s ++ t)) -> hoare (p_many0_sep p sep) R.
Proof. intros A B p sep Q S R H1 H2 H3 H4 H5. eapply h_repeat_sep; eauto. Qed.

Lemma items_forall : forall A (Q : A -> list I -> Prop) (P : A -> Prop) vs s,
  Items Q vs s -> (forall v t, Q v t -> P v) -> Forall P vs.
Proof. intros A Q P vs s H HP. induction H; constructor; eauto. Qed.
Lemma septail_forall : forall A B (Q : A -> list I -> Prop) (S : B -> list I -> Prop) (P : A -> Prop) vs s,
  SepTail Q S vs s -> (forall v t, Q v t -> P v) -> Forall P vs.
Proof. intros A B Q S P vs s H HP. induction H; constructor; eauto. Qed.

(** Literals. *)
Lemma h_literal : forall (eqb : I -> I -> bool) s (R : list I -> list I -> Prop),
  (forall a b, eqb a b = true <-> a = b) -> R s s -> hoare (p_seq eqb s) R /\ hoare (p_tag_by eqb s) R.
Proof.
  intros eqb s R He HR.
  assert (K : forall inp off sh, off <= length inp ->
    erase (tag_no_case_loop eqb s (skipn off inp) off s (skipn off inp) 0) = sh ->
    match sh with ShSuccess v n => off + n <= length inp /\ R v (firstn n (skipn off inp)) | ShFailure _ => True
                | _ => False end).
  { intros inp off sh Ho E. rewrite lit_spec in E by exact He.
    destruct E as [[[r H] ->]|[(a & c & s2 & x & r & _ & _ & _ & ->)|(c & s2 & _ & ->)]]; try exact Logic.I.
    assert (L : length (skipn off inp) = length (s ++ r)) by now rewrite H.
    rewrite skipn_length, app_length in L. split; [lia|].
    assert (E : firstn (length s) (skipn off inp) = s) by (apply prefix_firstn; exists r; exact H). rewrite E. exact HR. }
  split; intros inp off Ho; unfold p_seq, p_tag_by; rewrite ps_input_ok by exact Ho.
  - specialize (K inp off _ Ho (eq_sym (@erase_seq_nocase _ eqb s (skipn off inp) off (skipn off inp) off s (skipn off inp) 0))).
    destruct (seq_loop _ _ _ _ _ _ _); cbn in K; exact K.
  - specialize (K inp off _ Ho (eq_sym (@erase_tag_nocase _ eqb s (skipn off inp) off (skipn off inp) off s (skipn off inp) 0))).
    destruct (tag_loop _ _ _ _ _ _ _); cbn in K; exact K.
Qed.
End Rules.

(** Element parsers over codes. *)
Lemma h_elm : forall e (R : N -> list N -> Prop), R e [e] -> hoare (p_elm e) R.
Proof.
  intros e R H. unfold p_elm, p_elm_eq, p_elm_ref_eq. eapply h_map; [apply h_elm_pred_ref|cbn; intros v s K; exact K].
  intros x Hx. apply N.eqb_eq in Hx. subst x. exact H.
Qed.
Lemma h_elm_ref : forall e (R : N -> list N -> Prop), R e [e] -> hoare (p_elm_ref e) R.
Proof. intros e R H. apply h_elm_pred_ref. intros x Hx. apply N.eqb_eq in Hx. subst x. exact H. Qed.
Lemma h_elm_of : forall l (R : N -> list N -> Prop), (forall x, In x l -> R x [x]) -> hoare (p_elm_of l) R.
Proof. intros l R H. apply h_elm_of_set. intros x Hx. apply H. now apply set_contains_in. Qed.
Lemma h_elm_in : forall a b (R : N -> list N -> Prop), (forall x, (a <= x <= b)%N -> R x [x]) -> hoare (p_elm_in a b) R.
Proof.
  intros a b R H. apply h_elm_of_set. intros x Hx. apply H. unfold range_in_contains in Hx.
  apply andb_true_iff in Hx. rewrite !N.leb_le in Hx. lia.
Qed.
Lemma h_none_of : forall l (R : N -> list N -> Prop), (forall x, ~ In x l -> R x [x]) -> hoare (p_none_of l) R.
Proof.
  intros l R H. apply h_none_of_set. intros x Hx. apply H. intros Hi. apply set_contains_in in Hi. congruence.
Qed.
Lemma h_seqN : forall s (R : list N -> list N -> Prop), R s s -> hoare (p_seqN s) R.
Proof. intros s R H. apply (h_literal N.eqb s R); [apply N.eqb_eq|exact H]. Qed.
Lemma h_tag : forall s (R : list N -> list N -> Prop), R s s -> hoare (p_tag s) R.
Proof. intros s R H. apply (h_literal N.eqb s R); [apply N.eqb_eq|exact H]. Qed.
Lemma h_digit : forall (R : N -> list N -> Prop), (forall x, (48 <= x <= 57)%N -> R x [x]) -> hoare p_elm_digit R.
Proof.
  intros R H. apply h_elm_pred. intros x Hx. apply H. unfold is_ascii_digit, in_range in Hx.
  apply andb_true_iff in Hx. rewrite !N.leb_le in Hx. lia.
Qed.
Lemma h_digit_1_9 : forall (R : N -> list N -> Prop), (forall x, (49 <= x <= 57)%N -> R x [x]) -> hoare p_elm_digit_1_9 R.
Proof.
  intros R H. unfold p_elm_digit_1_9, p_elm_digit_1_9_ref, p_filter_not, p_elm_digit_ref.
  eapply h_map with (Q := R); [|auto]. eapply h_filter with (Q := fun x s => s = [x] /\ (48 <= x <= 57)%N).
  - apply h_elm_pred_ref. intros x Hx. unfold is_ascii_digit, in_range in Hx.
    apply andb_true_iff in Hx. rewrite !N.leb_le in Hx. split; [reflexivity|lia].
  - intros x s [-> Hx] Hz. apply H. apply negb_true_iff, N.eqb_neq in Hz. lia.
Qed.
