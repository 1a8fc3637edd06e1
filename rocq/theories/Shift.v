(** Position independence of offset-free parsers (C31). *)
From Verif Require Import Base Core Comb Closure.
Set Implicit Arguments.

Lemma ps_input_shift : forall I k (inp : list I) off, k <= length inp ->
  ps_input inp (k + off) = ps_input (skipn k inp) off.
Proof.
  intros I k inp off Hk. unfold ps_input, slice_from. rewrite skipn_length, skipn_skipn'.
  destruct (Nat.leb_spec (k + off) (length inp)), (Nat.leb_spec off (length inp - k)); try lia; reflexivity.
Qed.

Lemma slice_with_len_shift : forall I k (inp : list I) off n, k <= length inp ->
  slice_with_len inp (k + off) n = slice_with_len (skipn k inp) off n.
Proof.
  intros I k inp off n Hk. unfold slice_with_len, slice. rewrite skipn_length, skipn_skipn'.
  replace (k + off + n - (k + off)) with (off + n - off) by lia.
  destruct (Nat.leb_spec (k + off) (k + off + n)), (Nat.leb_spec off (off + n)),
    (Nat.leb_spec (k + off + n) (length inp)), (Nat.leb_spec (off + n) (length inp - k)); try lia; reflexivity.
Qed.

Lemma erase_seq_loop : forall I (eqb : I -> I -> bool) w i1 o1 i2 o2 s rest index,
  erase (seq_loop eqb w i1 o1 s rest index) = erase (seq_loop eqb w i2 o2 s rest index).
Proof.
  induction s as [|c s IH]; intros rest index; cbn; [reflexivity|].
  destruct rest as [|x rest]; [reflexivity|]. destruct (eqb c x); cbn; [apply IH|reflexivity].
Qed.
Lemma erase_tag_loop : forall I (eqb : I -> I -> bool) w i1 o1 i2 o2 s rest index,
  erase (tag_loop eqb w i1 o1 s rest index) = erase (tag_loop eqb w i2 o2 s rest index).
Proof.
  induction s as [|c s IH]; intros rest index; cbn; [reflexivity|].
  destruct rest as [|x rest]; [reflexivity|]. destruct (eqb c x); cbn; [apply IH|reflexivity].
Qed.
Lemma erase_tag_no_case_loop : forall I (eqb : I -> I -> bool) w i1 o1 i2 o2 s rest index,
  erase (tag_no_case_loop eqb w i1 o1 s rest index) = erase (tag_no_case_loop eqb w i2 o2 s rest index).
Proof.
  induction s as [|c s IH]; intros rest index; cbn; [reflexivity|].
  destruct rest as [|x rest]; [reflexivity|]. destruct (eqb c x); cbn; [apply IH|reflexivity].
Qed.

(** Case analysis on the two runs related by a shiftability hypothesis [H]. *)
Ltac shift_cases H k inp off Hk :=
  let G := fresh "G" in
  pose proof (H k inp off Hk) as G;
  match type of G with erase ?x = erase ?y =>
    let E1 := fresh "E1" in let E2 := fresh "E2" in
    destruct x eqn:E1, y eqn:E2; cbn [erase] in G; try discriminate; try (injection G; intros; subst); clear G
  end.

Lemma rep_loop_shift : forall I A B (p : parser I A) (sep : option (parser I B)) rend k inp,
  k <= length inp -> shiftable p -> (forall s, sep = Some s -> shiftable s) ->
  forall fuel cur items al,
  rep_loop fuel p sep rend inp (k + cur) items al = rep_loop fuel p sep rend (skipn k inp) cur items al.
Proof.
  intros I A B p sep rend k inp Hk Hp Hs fuel. induction fuel as [|fuel IH]; intros cur items al; cbn;
    [reflexivity|].
  destruct (rep_stop rend (length items)); [reflexivity|]. destruct sep as [s|].
  - specialize (Hs s eq_refl). shift_cases Hs k inp cur Hk; try reflexivity.
    rewrite <- Nat.add_assoc. shift_cases Hp k inp (cur + len0) Hk; try reflexivity.
    rewrite <- Nat.add_assoc. apply IH.
  - shift_cases Hp k inp cur Hk; try reflexivity.
    rewrite <- Nat.add_assoc. apply IH.
Qed.

Lemma repeat_sep_shift : forall I A B (p : parser I A) r (sep : option (parser I B)),
  shiftable p -> (forall s, sep = Some s -> shiftable s) -> shiftable (p_repeat_sep p r sep).
Proof.
  intros I A B p r sep Hp Hs k inp off Hk. unfold p_repeat_sep, repeat_sep_fuel.
  assert (F : rep_fuel (rg_end r) inp (k + off) = rep_fuel (rg_end r) (skipn k inp) off).
  { unfold rep_fuel. rewrite skipn_length. lia. }
  rewrite F.
  assert (G : forall rr, erase (rep_finish (A := A) (rg_start r) inp (k + off) rr) =
                         erase (rep_finish (rg_start r) (skipn k inp) off rr)).
  { intros [its al| |]; cbn [rep_finish]; try reflexivity. destruct (rg_start r); try reflexivity.
    destruct (length its <? n); [|reflexivity].
    rewrite <- Nat.add_assoc, ps_input_shift by exact Hk. now destruct (ps_input _ _). }
  rewrite G. f_equal. f_equal. shift_cases Hp k inp off Hk; try reflexivity.
  rewrite <- Nat.add_assoc. apply rep_loop_shift; auto.
Qed.

Lemma rest_left1_shift : forall I A (p : parser I A) op, shiftable p -> shiftable op ->
  forall fuel x, shiftable (rest_left1_fuel fuel p op x).
Proof.
  intros I A p op Hp Hop fuel. induction fuel as [|fuel IH]; intros x k inp off Hk; cbn; [reflexivity|].
  unfold p_or. shift_cases Hop k inp off Hk; try reflexivity.
  - rewrite <- Nat.add_assoc. shift_cases Hp k inp (off + len0) Hk; try reflexivity.
    + rewrite <- Nat.add_assoc.
      shift_cases (IH (value0 x value1)) k inp (off + len0 + len1) Hk; cbn; try reflexivity.
      now destruct (cs_or _ _).
    + cbn. now destruct (cs_or _ _).
  - now destruct committed0.
Qed.

Theorem built_shiftable : forall I (leaf : forall A, parser I A -> Prop) pan,
  (forall A (p : parser I A), leaf A p -> shiftable p) ->
  forall A (p : parser I A), built leaf false pan p -> shiftable p.
Proof.
  intros I leaf pan Hleaf A p Hb. induction Hb; intros k inp off Hk.
  - now apply Hleaf.
  - reflexivity.
  - reflexivity.
  - reflexivity.
  - reflexivity.
  - unfold p_failed_lazy. now destruct (f tt).
  - unfold p_filter. shift_cases IHHb k inp off Hk; try reflexivity. now destruct (f value0).
  - unfold p_flat_map. shift_cases IHHb k inp off Hk; try reflexivity.
    rewrite <- Nat.add_assoc. shift_cases (H0 value0) k inp (off + len0) Hk; reflexivity.
  - unfold p_map. shift_cases IHHb k inp off Hk; reflexivity.
  - unfold p_map_panic. shift_cases IHHb k inp off Hk; try reflexivity; now destruct (f value0).
  - unfold p_exists. shift_cases IHHb k inp off Hk; reflexivity.
  - unfold p_not. rewrite !Nat.add_0_r, ps_input_shift by exact Hk.
    shift_cases IHHb k inp off Hk; try reflexivity; now destruct (ps_input _ _).
  - unfold p_or. shift_cases IHHb1 k inp off Hk; try reflexivity.
    destruct committed0; cbn; [reflexivity|]. now apply IHHb2.
  - unfold p_and. shift_cases IHHb1 k inp off Hk; try reflexivity.
    rewrite <- Nat.add_assoc. shift_cases IHHb2 k inp (off + len0) Hk; reflexivity.
  - unfold p_attempt. shift_cases IHHb k inp off Hk; try reflexivity. now destruct committed0.
  - unfold p_rest_left1. replace (chain_fuel inp (k + off)) with (chain_fuel (skipn k inp) off).
    + now apply rest_left1_shift.
    + unfold chain_fuel. rewrite skipn_length. do 2 f_equal. lia.
  - apply repeat_sep_shift; auto. intros s0 Es; inv Es; auto.
  - apply repeat_sep_shift; auto. intros s0 Es; inv Es.
  - unfold p_seq. rewrite ps_input_shift by exact Hk. destruct (ps_input _ _); [|reflexivity].
    apply erase_seq_loop.
  - unfold p_tag_by. rewrite ps_input_shift by exact Hk. destruct (ps_input _ _); [|reflexivity].
    apply erase_tag_loop.
  - unfold p_tag_no_case_by. rewrite ps_input_shift by exact Hk. destruct (ps_input _ _); [|reflexivity].
    apply erase_tag_no_case_loop.
  - unfold p_elm_pred_ref. rewrite ps_input_shift by exact Hk. destruct (ps_input _ _) as [[|x l]|]; try reflexivity.
    now destruct (f x).
  - unfold p_elm_ref_of. rewrite ps_input_shift by exact Hk. destruct (ps_input _ _) as [[|x l]|]; try reflexivity.
    now destruct (f x).
  - unfold p_none_ref_of. rewrite ps_input_shift by exact Hk. destruct (ps_input _ _) as [[|x l]|]; try reflexivity.
    now destruct (f x).
  - unfold p_take. rewrite ps_input_shift, slice_with_len_shift by exact Hk. reflexivity.
  - unfold p_take_while0. rewrite ps_input_shift, slice_with_len_shift by exact Hk. reflexivity.
  - unfold p_take_while1. rewrite ps_input_shift by exact Hk. reflexivity.
  - unfold p_take_while_n_m. rewrite ps_input_shift by exact Hk. reflexivity.
  - unfold p_take_till0. rewrite ps_input_shift by exact Hk.
    destruct (ps_input _ _); [|reflexivity]. destruct (tt_loop f l 0) as [i [|]]; [|reflexivity].
    now rewrite slice_with_len_shift by exact Hk.
  - unfold p_take_till1. rewrite ps_input_shift by exact Hk.
    destruct (ps_input _ _); [|reflexivity]. destruct (tt_loop f l 0) as [i [|]]; [|reflexivity].
    now rewrite slice_with_len_shift by exact Hk.
  - unfold p_collect. shift_cases IHHb k inp off Hk; try reflexivity.
    now rewrite slice_with_len_shift by exact Hk.
  - unfold p_map_res. shift_cases IHHb k inp off Hk; try reflexivity.
    destruct (f value0); [reflexivity|]. rewrite ps_input_shift by exact Hk. now destruct (ps_input _ _).
  - unfold p_map_opt. shift_cases IHHb k inp off Hk; try reflexivity.
    destruct (f value0); [reflexivity|]. rewrite ps_input_shift by exact Hk. now destruct (ps_input _ _).
  - unfold p_discard. shift_cases IHHb k inp off Hk; reflexivity.
  - exact (IHHb _ _ _ Hk).
  - exact (IHHb _ _ _ Hk).
  - unfold p_name. shift_cases IHHb k inp off Hk; try reflexivity.
    now destruct (is_custom error), (is_custom error0).
  - unfold p_expect. shift_cases IHHb k inp off Hk; reflexivity.
  - discriminate.
  - discriminate.
  - unfold p_peek. shift_cases IHHb k inp off Hk; reflexivity.
  - unfold p_end. rewrite ps_input_shift by exact Hk. now destruct (ps_input _ _) as [[|x l]|].
  - unfold p_skip. rewrite ps_input_shift by exact Hk. destruct (ps_input _ _); [|reflexivity].
    now destruct (n <=? length l).
  - unfold p_skip_left. shift_cases IHHb1 k inp off Hk; try reflexivity.
    rewrite <- Nat.add_assoc. shift_cases IHHb2 k inp (off + len0) Hk; reflexivity.
  - unfold p_skip_right. shift_cases IHHb1 k inp off Hk; try reflexivity.
    rewrite <- Nat.add_assoc. shift_cases IHHb2 k inp (off + len0) Hk; reflexivity.
Qed.
