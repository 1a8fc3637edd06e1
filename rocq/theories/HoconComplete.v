(** The hocon parser reads every text of the grammar of HoconSpec.v with the value it spells. *)
From Verif Require Import Base Core Comb Closure RepFacts LitFacts Hoare Runs Weak Agree Text Json JsonSpec JsonFacts Hocon HoconFacts HoconParse HoconLookup HoconResolve HoconSpec.
Set Implicit Arguments.
Local Open Scope string_scope.
Local Open Scope nat_scope.
Local Open Scope list_scope.

(** ** Layout *)
Definition skips (w l : list N) : Prop := acc space_or_comment w l tt.
Definition no_comment (l : list N) : Prop :=
  match l with [] => True | x :: t => x <> 35%N /\ (x = 47%N -> match t with [] => True | y :: _ => y <> 47%N end) end.
Lemma solid_no_comment : forall l, solid l -> no_comment l.
Proof. intros [|x l] H; [exact I|]. exact (proj2 H). Qed.
Lemma solid_no_ws : forall l, solid l -> no_ws l.
Proof. intros [|x l] H; [exact I|]. exact (proj1 H). Qed.
Lemma ws_no_comment : forall w l, ws w -> w <> [] -> no_comment (w ++ l).
Proof.
  intros [|x w] l Hw Hn; [congruence|]. inv Hw. match goal with H : In x _ |- _ => cbn in H; destruct H as [<-|[<-|[<-|[<-|[]]]]] end; cbn; split; discriminate.
Qed.
Lemma a_hspace : forall w rest, ws w -> no_ws rest -> acc hspace w rest w.
Proof.
  intros w rest Hw Hr. unfold hspace. eapply a_collect. eapply a_many0.
  - apply chain_class with (f := set_contains [32; 9; 13; 10]%N).
    + intros x r Hx. now apply a_elm_ref_of.
    + eapply Forall_impl; [|exact Hw]. intros x Hx. now apply set_contains_in.
  - apply r_elm_ref_of. destruct rest as [|x r]; [exact I|]. cbn -[set_contains]. now apply set_not_in.
Qed.
Lemma r_comment_head : forall l, no_comment l -> rej comment_head l false.
Proof.
  intros l H. unfold comment_head. apply r_or.
  - assert (R : rej (p_attempt (p_seqN (bs "//"))) l false).
    { apply seq_not_prefix. intros r ->. destruct H as [_ H]. now apply (H eq_refl). }
    intros pre. destruct (R pre) as [e E]. unfold p_attempt, p_collect in *.
    destruct (p_seqN (bs "//") (pre ++ l) (length pre)); try discriminate. destruct committed; cbn; eauto.
  - eapply r_collect, r_elm_ref. destruct l as [|x l]; [exact I|]. exact (proj1 H).
Qed.
Lemma tt_run : forall (f : N -> bool) t x, Forall (fun y => f y = false) t -> f x = true -> forall r k, tt_loop f (t ++ [x] ++ r) k = (k + length t, true).
Proof.
  intros f t x Ht Hx r. induction Ht as [|y t Hy Ht IH]; intros k; cbn [app tt_loop length].
  - rewrite Hx. f_equal. lia.
  - rewrite Hy. rewrite IH. f_equal. lia.
Qed.
Lemma a_comment_tail : forall t x rest, Forall (fun y => ~ newline y) t -> newline x -> acc comment_tail (t ++ [x]) rest (t ++ [x]).
Proof.
  intros t x rest Ht Hx pre. unfold comment_tail, p_take_till0. rewrite <- app_assoc, input_at, tt_run.
  - cbn [Nat.add]. pose proof (slice_at pre (t ++ [x]) rest) as S0. rewrite <- app_assoc, app_length in S0. cbn [List.length] in S0.
    rewrite S0. now rewrite app_length.
  - eapply Forall_impl; [|exact Ht]. intros y Hy. unfold newline in Hy. cbn. destruct (N.eqb_spec y 13), (N.eqb_spec y 10); tauto.
  - destruct Hx as [->| ->]; reflexivity.
Qed.
Lemma a_comment_line : forall c rest, comment_line c -> exists v, acc (p_and comment_head comment_tail) c rest v.
Proof.
  intros c rest (h & t & x & -> & Hh & Ht & Hx). eexists. eapply a_and; [|now apply a_comment_tail].
  unfold comment_head. instantiate (1 := h). destruct Hh as [->| ->].
  - apply a_or2.
    + eapply r_attempt, r_collect, r_seqN. discriminate.
    + eapply a_collect, a_elm_ref.
  - apply a_or1. eapply a_attempt, a_collect, a_seqN.
Qed.
Lemma comment_line_ne : forall c, comment_line c -> c <> [].
Proof. intros c (h & t & x & -> & [->| ->] & _); discriminate. Qed.
Lemma chain_comments : forall cs rest, Forall comment_line cs -> exists vs, chain (p_and comment_head comment_tail) (List.concat cs) rest vs /\ length vs = length cs.
Proof.
  intros cs rest H. induction H as [|c cs Hc H (vs & IH & L)]; [exists []; split; [constructor|reflexivity]|].
  destruct (a_comment_line (List.concat cs ++ rest) Hc) as [v Hv]. exists (v :: vs). split; [|cbn; now rewrite L].
  cbn [List.concat]. constructor; [exact Hv|now apply comment_line_ne|exact IH].
Qed.
Lemma skips_ws : forall w l, ws w -> solid l -> skips w l.
Proof.
  intros w l Hw Hl. unfold skips, space_or_comment. eapply a_discard. apply a_or2.
  - eapply r_attempt. unfold comment. apply r_collect. eapply r_and2; [apply a_hspace; [exact Hw|now apply solid_no_ws]|].
    eapply r_many1, r_and1, r_comment_head. now apply solid_no_comment.
  - apply a_hspace; [exact Hw|now apply solid_no_ws].
Qed.
Lemma skips_comments : forall w cs l, ws w -> Forall comment_line cs -> cs <> [] -> no_comment l -> skips (w ++ List.concat cs) l.
Proof.
  intros w cs l Hw Hc Hn Hl. destruct (chain_comments l Hc) as (vs & C & L). unfold skips, space_or_comment.
  eapply a_discard, a_or1, a_attempt, a_collect, a_and.
  - apply a_hspace; [exact Hw|]. inv Hc; [congruence|]. match goal with H : comment_line _ |- _ => destruct H as (h & t & y & -> & [->| ->] & _) end;
      cbn; unfold is_ws; cbn; lits.
  - eapply a_many1; [exact C|eapply r_and1, r_comment_head, Hl|]. intros ->. cbn in L. destruct cs; [congruence|discriminate].
Qed.
Lemma solid_hd : forall x l, ~ In x [32; 9; 13; 10; 35; 47]%N -> solid (x :: l).
Proof. intros x l H. cbn in *. repeat split; intros; intuition congruence. Qed.
Ltac shd := apply solid_hd; lits.
Lemma skips_nil : forall l, solid l -> skips [] l.
Proof. intros l H. apply skips_ws; [constructor|exact H]. Qed.
Lemma block_skips : forall b l, block b -> solid l -> skips b l.
Proof.
  intros b l (w & cs & -> & Hw & Hc) Hl. destruct cs as [|c cs].
  - cbn. rewrite app_nil_r. now apply skips_ws.
  - apply skips_comments; [exact Hw|exact Hc|discriminate|now apply solid_no_comment].
Qed.
Lemma gap_split : forall g l, gap g -> solid l -> exists g1 g2, g = g1 ++ g2 /\ skips g1 (g2 ++ l) /\ skips g2 l /\ ws g2.
Proof.
  intros g l (b & w' & -> & (w & cs & -> & Hw & Hc) & Hw') Hl. destruct cs as [|c cs].
  - exists (w ++ w'), []. cbn. rewrite !app_nil_r. repeat split; [apply skips_ws; [now apply ws_app|exact Hl]|now apply skips_nil|constructor].
  - exists (w ++ List.concat (c :: cs)), w'. repeat split; [|now apply skips_ws|exact Hw'].
    apply skips_comments; [exact Hw|exact Hc|discriminate|]. destruct w' as [|x w']; [now apply solid_no_comment|]. now apply ws_no_comment.
Qed.
Lemma a_spaced : forall A (p : parser N A) a s b rest v, skips a (s ++ b ++ rest) -> acc p s (b ++ rest) v -> skips b rest ->
  acc (spaced p) (a ++ s ++ b) rest v.
Proof. intros. unfold spaced. eapply a_surround; eassumption. Qed.
Lemma r_spaced : forall A (p : parser N A) a l c, skips a l -> rej p l c -> rej (spaced p) (a ++ l) c.
Proof. intros A p a l c H1 H2. unfold spaced, p_surround. eapply r_skip_left2; [exact H1|]. now apply r_skip_right1. Qed.
Lemma r_spaced0 : forall A (p : parser N A) l c, solid l -> rej p l c -> rej (spaced p) l c.
Proof. intros A p l c H1 H2. change l with ([] ++ l). apply r_spaced; [now apply skips_nil|exact H2]. Qed.

(** ** Strings *)
Definition hchar_elm : parser N N :=
  p_map (p_or (p_none_ref_of (set_contains (bs "[]" ++ [13; 10; 92; 34; 39]%N))) escape_sequence) (fun x => x).
Definition hpieces : parser N (list N) := p_or (p_attempt hchar_string) (utf16_string true).
(** The text of a string ends at [l]. *)
Definition str_end (l : list N) : Prop := match l with [] => True | x :: _ => stop_char x /\ x <> 92%N end.
Lemma hitem_item : forall i, hitem_ok i -> item_ok false i.
Proof. intros [x|c|h] [H _]; cbn in *; [|exact H|exact H]. repeat split; try tauto; discriminate. Qed.
Lemma hitem_stop : forall x, hitem_ok (SRaw x) -> ~ stop_char x.
Proof.
  intros x [(H1 & H2 & H3) H4]. specialize (H3 eq_refl). unfold stop_char. cbn in *. intros H.
  repeat (destruct H as [<-|H]; [tauto || congruence || lia|]). contradiction.
Qed.
Lemma a_hchar_raw : forall x rest, ~ stop_char x -> acc hchar_elm [x] rest x.
Proof. intros x rest H. unfold hchar_elm. apply (a_map (fun x => x)). apply a_or1, a_none_ref_of. now apply set_not_in. Qed.
Lemma a_hchar : forall i rest, JsonFacts.plain i -> hitem_ok i -> acc hchar_elm (item_text i) rest (plain_value i).
Proof.
  intros [x|c|h] rest Hp Hi; [| |contradiction].
  - apply a_hchar_raw. now apply hitem_stop.
  - unfold hchar_elm; apply (a_map (fun x => x)); cbn [item_text plain_value] in *. apply a_or2.
    + apply r_none_ref_of. reflexivity.
    + unfold escape_sequence. change [92%N; c] with ([92%N] ++ [c]). eapply a_skip_left; [apply a_elm_ref|]. apply a_special; apply Hi.
Qed.
Lemma r_hchar_end : forall l, str_end l -> rej hchar_elm l false.
Proof.
  intros l H. unfold hchar_elm. apply r_map, r_or.
  - apply r_none_ref_of. destruct l as [|x l]; [exact I|]. cbn -[set_contains]. apply negb_false_iff. apply set_contains_in, H.
  - apply r_skip_left1, r_elm_ref. destruct l; [exact I|]. apply H.
Qed.
Lemma r_hchar_u : forall l, rej hchar_elm (92%N :: 117%N :: l) false.
Proof.
  intros l. unfold hchar_elm. apply r_map, r_or; [apply r_none_ref_of; reflexivity|]. unfold escape_sequence.
  change (92%N :: 117%N :: l) with ([92%N] ++ 117%N :: l). eapply r_skip_left2; [apply a_elm_ref|].
  unfold special_char. repeat apply r_or; first [apply r_elm_ref; discriminate|apply r_map, r_elm_ref; discriminate].
Qed.
Lemma end_quote : forall l, str_end (34%N :: l).
Proof. intros l. split; [cbn; tauto|discriminate]. Qed.
Lemma chain_hpieces : forall n is rest, length is <= n -> Forall hitem_ok is -> utf8_valid (flat_map item_text is) = true ->
  exists vs, chain hpieces (flat_map item_text is) (34%N :: rest) vs /\ List.concat vs = items_value utf8_encode is /\ (is <> [] -> vs <> []).
Proof.
  intros n. induction n as [|n IH]; intros is rest Hn Hi Hv.
  { destruct is; [|cbn in Hn; lia]. exists []. repeat split; [constructor|congruence]. }
  destruct is as [|i is]; [exists []; repeat split; [constructor|congruence]|].
  destruct (plain_or_uni i) as [Hp|[h ->]].
  - destruct (span_plain (i :: is)) as (js & ks & E & J & K). destruct js as [|j js].
    { exfalso. cbn in E. subst ks. destruct K as [h ->]. contradiction. }
    rewrite E in *. apply Forall_app in Hi. destruct Hi as [Ij Ik].
    assert (Ij' : Forall (item_ok false) (j :: js)) by (eapply Forall_impl; [exact hitem_item|exact Ij]).
    assert (L : length ks <= n) by (rewrite app_length in Hn; cbn [List.length] in Hn; lia).
    assert (Vj : utf8_valid (flat_map item_text (j :: js)) = true /\ utf8_valid (flat_map item_text ks) = true).
    { rewrite flat_map_app in Hv. destruct ks as [|k ks].
      - cbn [flat_map] in Hv |- *. rewrite app_nil_r in Hv. split; [exact Hv|reflexivity].
      - destruct K as [h ->]. cbn [flat_map item_text app] in Hv. change ((92 :: 117 :: h)%N ++ flat_map item_text ks) with (92%N :: (117%N :: h) ++ flat_map item_text ks) in Hv.
        rewrite utf8_valid_split in Hv by reflexivity. apply andb_true_iff in Hv. exact Hv. }
    destruct (IH ks rest L Ik (proj2 Vj)) as (vs & C & Ec & _).
    exists (map plain_value (j :: js) :: vs). split; [|split; [|discriminate]].
    + rewrite flat_map_app. constructor.
      * apply a_or1, a_attempt. unfold hchar_string. eapply a_map_res with (v := map plain_value (j :: js)).
        { eapply a_many1 with (c := false).
          - apply chain_items; intros i' * Hin.
            + apply a_hchar; [now apply (proj1 (Forall_forall _ _) J)|now apply (proj1 (Forall_forall _ _) Ij)].
            + apply (proj1 (Forall_forall _ _) J) in Hin. destruct i'; [discriminate|discriminate|contradiction].
          - destruct ks as [|k ks]; [apply r_hchar_end, end_quote|]. destruct K as [h ->]. apply r_hchar_u.
          - discriminate. }
        unfold from_utf8. pose proof (plain_valid [] J Ij') as V. cbn [app] in V. rewrite <- V. now rewrite (proj1 Vj).
      * inv J. destruct j; [discriminate|discriminate|contradiction].
      * exact C.
    + cbn [List.concat]. rewrite Ec. now rewrite plain_items_value.
  - destruct (span_uni (SUni h :: is)) as (hs & ks & E & K). destruct hs as [|h0 hs].
    { exfalso. cbn in E. subst ks. now apply K. }
    rewrite E in *. apply Forall_app in Hi. destruct Hi as [Ij Ik].
    assert (L : length ks <= n).
    { rewrite app_length in Hn; cbn [List.length map] in Hn; lia. }
    assert (Hh : Forall hex4 (h0 :: hs)).
    { apply Forall_forall. intros x Hx. exact (proj1 (proj1 (Forall_forall _ _) Ij (SUni x) (in_map SUni _ _ Hx))). }
    destruct (IH ks rest L Ik) as (vs & C & Ec & _).
    { rewrite flat_map_app in Hv. now rewrite uni_valid in Hv. }
    exists (flat_map utf8_encode (decode_utf16 (map hex_value (h0 :: hs))) :: vs). split; [|split; [|discriminate]].
    + rewrite flat_map_app. constructor.
      * apply a_or2; [eapply r_attempt, r_map_res; eapply r_many1, r_hchar_u|].
        unfold utf16_string. eapply a_map_eq with (v := map hex_value (h0 :: hs)).
        { assert (R : exists c, rej (utf16_char true) (flat_map item_text ks ++ 34%N :: rest) c).
          { destruct ks as [|[x|c|h'] ks].
            - eexists. apply r_utf16_hd. discriminate.
            - eexists. apply r_utf16_hd. inv Ik. now match goal with H : hitem_ok _ |- _ => destruct H as [(_ & H & _) _] end.
            - eexists. apply r_utf16_esc. inv Ik. match goal with H : hitem_ok _ |- _ => exact (proj2 (proj2 (@esc_cases _ (proj1 H)))) end.
            - now destruct K. }
          destruct R as [c R]. eapply a_many1; [|exact R|discriminate].
          rewrite flat_map_concat_map, map_map, <- flat_map_concat_map.
          apply chain_items; intros h' * Hin; [|discriminate].
          apply a_utf16_char. now apply (proj1 (Forall_forall _ _) Hh). }
        reflexivity.
      * discriminate.
      * exact C.
    + cbn [List.concat]. rewrite Ec. now rewrite uni_items_value with (n := length (h0 :: hs)).
Qed.
Lemma r_hpieces_end : forall l, str_end l -> rej hpieces l false.
Proof.
  intros l H. apply r_or.
  - eapply r_attempt, r_map_res. eapply r_many1, r_hchar_end, H.
  - apply r_map. eapply r_many1, r_utf16_hd. destruct l; [exact I|]. apply H.
Qed.
Lemma r_surround_end : forall l, str_end l -> rej string_surround l false.
Proof. intros l H. eapply r_many1, r_hpieces_end, H. Qed.
Lemma solid_quote : forall l r, solid (l ++ [34%N]) -> solid (l ++ 34%N :: r).
Proof. intros [|x [|y l]] r H; [cbn in *; repeat split; lits; tauto|exact H|exact H]. Qed.
Lemma a_quoted : forall v s b rest, g_quoted v s -> skips b rest -> acc hstring (s ++ b) rest v.
Proof.
  intros v s b rest (is & Hne & Hi & -> & -> & Hv & Hs) Hb. destruct (chain_hpieces (b ++ rest) (le_n _) Hi Hv) as (vs & C & Ec & Hvs).
  unfold hstring. eapply a_map_eq; [|symmetry; exact Ec]. apply a_or1, a_or1, a_attempt.
  replace (([34%N] ++ flat_map item_text is ++ [34%N]) ++ b) with (([] ++ [34%N] ++ []) ++ flat_map item_text is ++ ([] ++ [34%N] ++ b)) by (cbn; now rewrite <- !app_assoc).
  eapply a_surround.
  - apply a_spaced; [apply skips_nil; shd|apply a_elm_ref|apply skips_nil]. cbn [app]. now apply solid_quote.
  - cbn [app]. unfold string_surround. fold hpieces. eapply a_many1; [exact C|apply r_hpieces_end, end_quote|]. now apply Hvs.
  - apply a_spaced; [apply skips_nil; shd|apply a_elm_ref|exact Hb].
Qed.
(** A run of characters up to a character that ends it. *)
Lemma a_hrun : forall r rest, Forall (fun x => ~ stop_char x) r -> r <> [] -> str_end rest -> acc (p_many1 hchar_elm) r rest r.
Proof.
  intros r rest Hr Hne He. eapply a_many1; [|apply r_hchar_end, He|exact Hne].
  apply chain_class with (f := fun x => negb (set_contains (bs "[]" ++ [13; 10; 92; 34; 39]%N) x)).
  - intros x l Hx. apply a_hchar_raw. intros Hc. apply set_contains_in in Hc. rewrite Hc in Hx. discriminate.
  - eapply Forall_impl; [|exact Hr]. intros x Hx. apply negb_true_iff. now apply set_not_in.
Qed.
Lemma run_surround : forall r rest, Forall (fun x => ~ stop_char x) r -> r <> [] -> str_end rest ->
  acc string_surround r rest [r] \/ rej string_surround (r ++ rest) false.
Proof.
  intros r rest Hr Hne He. pose proof (@a_hrun r rest Hr Hne He) as A. destruct (utf8_valid r) eqn:V.
  - left. unfold string_surround. fold hpieces. eapply a_many1; [|apply r_hpieces_end, He|discriminate].
    rewrite <- (app_nil_r r) at 1. constructor; [|exact Hne|constructor]. apply a_or1, a_attempt. eapply a_map_res; [exact A|].
    unfold from_utf8. now rewrite V.
  - right. unfold string_surround. eapply r_many1. apply r_or.
    + eapply r_attempt. unfold hchar_string. eapply r_map_res_conv; [exact A|]. unfold from_utf8. now rewrite V.
    + apply r_map. eapply r_many1, r_utf16_hd. destruct r as [|x r]; [congruence|]. inv Hr. cbn. intros ->. apply H1. cbn; tauto.
Qed.
(** Neither kind of quote. *)
Lemma hstring_unquoted : forall l, solid l -> match l with [] => True | x :: _ => x <> 34%N /\ x <> 39%N end ->
  rej (p_or (p_attempt (p_surround double_quote string_surround double_quote))
            (p_attempt (p_surround single_quote string_surround single_quote))) l false.
Proof.
  intros l Hs Hl. apply r_or; eapply r_attempt, r_surround1, r_spaced0; try exact Hs; apply r_elm_ref; destruct l; try exact I; apply Hl.
Qed.
Lemma a_bare_run : forall r rest, Forall (fun x => ~ stop_char x) r -> r <> [] -> utf8_valid r = true -> str_end rest -> solid (r ++ rest) ->
  acc hstring r rest r.
Proof.
  intros r rest Hr Hne Hv He Hs. unfold hstring. eapply a_map_eq with (v := [r]); [|cbn; now rewrite app_nil_r].
  apply a_or2.
  - apply hstring_unquoted; [exact Hs|]. destruct r as [|x r]; [congruence|]. inv Hr. cbn. split; intros ->; apply H1; cbn; tauto.
  - destruct (@run_surround r rest Hr Hne He) as [H|H]; [exact H|]. exfalso. destruct (H []) as [e E]. revert E. cbn [app List.length].
    unfold string_surround. fold hpieces.
    assert (A : acc (p_many1 hpieces) r rest [r]).
    { eapply a_many1; [|apply r_hpieces_end, He|discriminate].
      rewrite <- (app_nil_r r) at 1. constructor; [|exact Hne|constructor]. apply a_or1, a_attempt. eapply a_map_res; [exact (@a_hrun r rest Hr Hne He)|].
      unfold from_utf8. now rewrite Hv. }
    pose proof (A []) as A'. cbn [app List.length] in A'. rewrite A'. discriminate.
Qed.
Lemma r_hstring_end : forall l, solid l -> str_end l -> match l with [] => True | x :: _ => x <> 34%N /\ x <> 39%N end -> rej hstring l false.
Proof. intros l H1 H2 H3. unfold hstring. apply r_map, r_or; [now apply hstring_unquoted|now apply r_surround_end]. Qed.

(** ** Scalars *)
Lemma ascii_utf8 : forall s, Forall (fun x => (x < 128)%N) s -> from_utf8 s = inl s.
Proof.
  intros s H. unfold from_utf8. assert (V : utf8_valid s = true); [|now rewrite V].
  induction H as [|x s Hx H IH]; [reflexivity|]. change (x :: s) with ([x] ++ s). rewrite utf8_valid_app; [exact IH|].
  unfold utf8_valid. cbn. apply N.ltb_lt in Hx. now rewrite Hx.
Qed.
Lemma digits_ascii : forall s, Forall digit s -> Forall (fun x => (x < 128)%N) s.
Proof. intros s H. eapply Forall_impl; [|exact H]. unfold digit. intros. lia. Qed.
Lemma hint_ascii : forall i, g_int i -> Forall (fun x => (x < 128)%N) i.
Proof. intros i [->|(x & t & -> & Hx & Ht)]; [repeat constructor|]. constructor; [lia|now apply digits_ascii]. Qed.
Lemma a_hinteger : forall i rest, g_int i -> hd_not is_ascii_digit rest -> acc hinteger i rest i.
Proof.
  intros i rest Hi Hr. unfold hinteger. eapply a_map_res; [|apply ascii_utf8; now apply hint_ascii].
  destruct Hi as [->|(x & t & -> & Hx & Ht)].
  - apply a_or2; [|eapply a_collect, a_elm_ref]. eapply r_collect, r_and1. unfold p_elm_digit_1_9_ref, p_filter_not.
    change (bs "0" ++ rest) with ([48%N] ++ rest). eapply r_filter_false; [apply a_elm_pred_ref; reflexivity|reflexivity].
  - apply a_or1. eapply a_collect. change (x :: t) with ([x] ++ t). eapply a_and; [|apply a_digits; eassumption].
    unfold p_elm_digit_1_9_ref, p_filter_not. apply a_filter.
    + apply a_elm_pred_ref. apply dig_iff. unfold digit. lia.
    + unfold is_ascii_digit_zero. destruct (N.eqb_spec x 48); [lia|reflexivity].
Qed.
Lemma a_hfrac : forall f rest, g_frac f -> hd_not is_ascii_digit rest -> acc hfrac f rest f.
Proof.
  intros f rest (t & -> & Ht) Hr. unfold hfrac. eapply a_map_res; [eapply a_collect, a_and; [apply a_elm_ref|now apply a_digits1]|].
  apply ascii_utf8. constructor; [reflexivity|]. apply digits_ascii, Ht.
Qed.
Lemma a_hexp : forall e rest, g_exp e -> hd_not is_ascii_digit rest -> acc hexp e rest e.
Proof.
  intros e rest (e' & sg & t & -> & E1 & E2 & E3) Hr. unfold hexp.
  assert (V : exists v, acc (p_opt (p_elm_of (bs "+-"))) sg (t ++ rest) v).
  { eapply a_opt_any with (c := false); [exact E2| |].
    - intros [->| ->]; eexists; apply a_elm_of; cbn; tauto.
    - intros _. apply r_elm_of. destruct E3 as [E3 Hne]. destruct E3 as [|y t Hy _]; [congruence|]. cbn. unfold digit in Hy. lia. }
  destruct V as [v V]. eapply a_map_res.
  - eapply a_collect. rewrite app_assoc.
    eapply a_and; [eapply a_and; [|exact V]|now apply a_digits1].
    instantiate (1 := hd 0%N e'). destruct E1 as [->| ->]; apply a_elm_of; cbn; tauto.
  - apply ascii_utf8. apply Forall_app. split; [destruct E1 as [->| ->]; repeat constructor|]. apply Forall_app.
    split; [destruct E2 as [->|[->| ->]]; repeat constructor|]. apply digits_ascii, E3.
Qed.
Definition no_num (l : list N) : Prop := match l with [] => True | x :: _ => ~ digit x /\ ~ In x (bs ".eE") end.
Lemma no_num_digit : forall l, no_num l -> hd_not is_ascii_digit l.
Proof. intros [|x l] H; [exact I|]. cbn. destruct (is_ascii_digit x) eqn:E; [|reflexivity]. apply dig_iff in E. now destruct H. Qed.
Lemma solid_digit : forall x l, digit x -> solid (x :: l).
Proof. intros x l H. apply solid_hd. unfold digit in H. cbn. lia. Qed.
Lemma a_hnumber : forall D (dec : list N -> option D) s b rest, g_unsigned s -> no_num (b ++ rest) -> skips b rest ->
  exists x, acc hnumber (s ++ b) rest x /\ number_of dec x = dec s.
Proof.
  intros D dec s b rest (i & f & e & -> & Hi & Hf & He & Hef) Hn Hb.
  assert (Hde : hd_not is_ascii_digit (e ++ b ++ rest)).
  { destruct He as [->|(e' & sg & t & -> & [->| ->] & _)]; [apply no_num_digit, Hn|reflexivity|reflexivity]. }
  assert (Hdf : hd_not is_ascii_digit (f ++ e ++ b ++ rest)).
  { destruct Hf as [->|(t & -> & _)]; [exact Hde|reflexivity]. }
  pose proof (@a_hinteger _ _ Hi Hdf) as Ai. destruct (g_int_digits Hi) as (x & i' & Ei & Hx).
  assert (Am : acc (p_opt (p_elm_ref (chr "-"))) [] (i ++ f ++ e ++ b ++ rest) None).
  { eapply a_opt_none, r_elm_ref. rewrite Ei. cbn. intros ->. unfold digit in Hx. lia. }
  assert (Sol : solid ((i ++ f ++ e) ++ b ++ rest)) by (rewrite Ei; now apply solid_digit).
  assert (Go : forall vf ve, acc (p_opt hfrac) f (e ++ b ++ rest) vf -> acc (p_opt hexp) e (b ++ rest) ve ->
    acc hnumber ((i ++ f ++ e) ++ b) rest (None, i, vf, ve)).
  { intros vf ve A1 A2. unfold hnumber. change ((i ++ f ++ e) ++ b) with ([] ++ (i ++ f ++ e) ++ b). apply a_spaced; [now apply skips_nil| |exact Hb].
    replace (i ++ f ++ e) with ((([] ++ i) ++ f) ++ e) by (cbn [app]; now rewrite app_assoc).
    eapply a_and; [eapply a_and; [eapply a_and|]|]; eassumption. }
  destruct Hf as [->|Hf].
  - destruct He as [->|He].
    + exists (None, i, None, None). split.
      * apply Go; [eapply a_opt_none, r_map_res, r_collect, r_and1, r_elm_ref|eapply a_opt_none, r_map_res, r_collect, r_and1, r_and1, r_elm_of];
          cbn [app]; destruct (b ++ rest); try exact I; destruct Hn as [_ Hn]; [intros ->; apply Hn; cbn; tauto|intros Hc; apply Hn; cbn in *; tauto].
      * cbn. now rewrite app_nil_r.
    + exfalso. apply Hef; [|reflexivity]. destruct He as (e' & sg & t & -> & [->| ->] & _); discriminate.
  - destruct He as [->|He].
    + exists (None, i, Some f, None). split.
      * apply Go; [apply a_opt; apply a_hfrac; [exact Hf|exact Hde]|]. eapply a_opt_none, r_map_res, r_collect, r_and1, r_and1, r_elm_of.
        destruct (b ++ rest); try exact I; destruct Hn as [_ Hn]; intros Hc; apply Hn; cbn in *; tauto.
      * cbn. now rewrite app_nil_r.
    + exists (None, i, Some f, Some e). split; [|reflexivity].
      apply Go; apply a_opt; [apply a_hfrac; [exact Hf|exact Hde]|apply a_hexp; [exact He|now apply no_num_digit]].
Qed.
Lemma r_hnumber : forall x l, x <> 45%N -> ~ digit x -> solid (x :: l) -> rej hnumber (x :: l) false.
Proof.
  intros x l H1 H2 Hs. unfold hnumber. apply r_spaced0; [exact Hs|]. apply r_and1, r_and1.
  change (x :: l) with ([] ++ x :: l). eapply r_and2; [eapply a_opt_none, r_elm_ref; exact H1|].
  apply r_map_res, r_or; eapply r_collect; [eapply r_and1; unfold p_elm_digit_1_9_ref, p_filter_not; eapply r_filter, r_elm_pred_ref|apply r_elm_ref].
  - cbn. destruct (is_ascii_digit x) eqn:E; [|reflexivity]. apply dig_iff in E. contradiction.
  - intros ->. apply H2. unfold digit. cbn. lia.
Qed.
Lemma g_unsigned_hd : forall s, g_unsigned s -> exists x t, s = x :: t /\ digit x.
Proof. intros s (i & f & e & -> & Hi & _). destruct (g_int_digits Hi) as (x & t & -> & Hx). now exists x, (t ++ f ++ e). Qed.

(** Units of time *)
Lemma prefix_hd : forall c w x l, x <> c -> ~ prefix (c :: w) (x :: l).
Proof. intros c w x l H [r E]. now inv E. Qed.
Lemma prefix_nil : forall c w, ~ prefix (c :: w) [].
Proof. intros c w [r E]. discriminate. Qed.
Lemma prefix_hd2 : forall c d w l, match l with [] => True | x :: _ => x <> d end -> ~ prefix (c :: d :: w) (c :: l).
Proof. intros c d w l H [r E]. inv E. cbn in H. congruence. Qed.
Lemma a_unit : forall t u rest, g_unit t u -> match rest with [] => True | x :: _ => ~ letter x end -> acc time_unit_p t rest u.
Proof.
  intros t u rest H Hr.
  assert (N1 : forall d, letter d -> match rest with [] => True | x :: _ => x <> d end).
  { intros d Hd. destruct rest; [exact I|]. intros ->. contradiction. }
  unfold g_unit in H. cbn [In] in H. repeat (destruct H as [H|H]); try contradiction; inversion H; subst.
  - apply acc_units with (before := []) (after := tl unit_words); [reflexivity|]. intros w u [].
  - apply acc_units with (before := firstn 2 unit_words) (after := skipn 3 unit_words); [reflexivity|]. intros w u Hin. cbn [firstn unit_words In] in Hin.
    repeat (destruct Hin as [Hin|Hin]; [inv Hin; apply prefix_hd; discriminate|]). contradiction.
  - apply acc_units with (before := firstn 4 unit_words) (after := skipn 5 unit_words); [reflexivity|]. intros w u Hin. cbn [firstn unit_words In] in Hin.
    repeat (destruct Hin as [Hin|Hin]; [inv Hin; first [apply prefix_hd; discriminate|apply prefix_hd2; discriminate]|]). contradiction.
  - apply acc_units with (before := firstn 6 unit_words) (after := skipn 7 unit_words); [reflexivity|]. intros w u Hin. cbn [firstn unit_words In] in Hin.
    repeat (destruct Hin as [Hin|Hin]; [inv Hin; apply prefix_hd; discriminate|]). contradiction.
  - apply acc_units with (before := firstn 7 unit_words) (after := skipn 8 unit_words); [reflexivity|]. intros w u Hin. cbn [firstn unit_words In] in Hin.
    repeat (destruct Hin as [Hin|Hin]; [inv Hin; first [apply prefix_hd; discriminate|apply prefix_hd2; apply N1; unfold letter; lia]|]). contradiction.
  - apply acc_units with (before := firstn 8 unit_words) (after := skipn 9 unit_words); [reflexivity|]. intros w u Hin. cbn [firstn unit_words In] in Hin.
    repeat (destruct Hin as [Hin|Hin]; [inv Hin; apply prefix_hd; discriminate|]). contradiction.
  - apply acc_units with (before := firstn 9 unit_words) (after := skipn 10 unit_words); [reflexivity|]. intros w u Hin. cbn [firstn unit_words In] in Hin.
    repeat (destruct Hin as [Hin|Hin]; [inv Hin; apply prefix_hd; discriminate|]). contradiction.
Qed.
Lemma r_unit : forall w f, ws w -> no_unit f -> rejx time_unit_p (w ++ f).
Proof.
  intros w f Hw Hf. apply rejx_units. intros t u Hin [r E]. destruct w as [|x w].
  - cbn [app] in E. unfold no_unit in Hf. cbn [unit_words In] in Hin.
    repeat (destruct Hin as [Hin|Hin]; [injection Hin as <- <-; match goal with
      | _ : f = ?w ++ r |- _ => first [now apply (Hf w ltac:(cbn; tauto) r)|now apply (Hf (firstn 1 w) ltac:(cbn; tauto) (skipn 1 w ++ r))] end|]). contradiction.
  - inv Hw. cbn [app] in E. cbn [unit_words In] in Hin.
    match goal with H : In x _ |- _ => cbn in H; destruct H as [<-|[<-|[<-|[<-|[]]]]] end;
    repeat (destruct Hin as [Hin|Hin]; [inv Hin; discriminate|]); contradiction.
Qed.

(** ** Paths, keys and references *)
Lemma letter_alpha : forall x, letter x <-> is_ascii_alpha x = true.
Proof. intros x. unfold letter, is_ascii_alpha, in_range. rewrite orb_true_iff, !andb_true_iff, !N.leb_le. reflexivity. Qed.
Definition path_stop (l : list N) : Prop := match l with [] => True | x :: _ => ~ path_letter x /\ x <> 46%N end.
Lemma a_path_char : forall x rest, path_letter x -> acc (p_or p_elm_alpha (p_elm_of (bs "-_"))) [x] rest x.
Proof.
  intros x rest [H|H].
  - apply a_or1. unfold p_elm_alpha. apply a_elm_pred. now apply letter_alpha.
  - apply a_or2; [|now apply a_elm_of]. unfold p_elm_alpha. apply r_elm_pred. cbn in H |- *.
    destruct H as [<-|[<-|[]]]; reflexivity.
Qed.
Lemma r_path_char : forall l, match l with [] => True | x :: _ => ~ path_letter x end -> rej (p_or p_elm_alpha (p_elm_of (bs "-_"))) l false.
Proof.
  intros l H. apply r_or.
  - unfold p_elm_alpha. apply r_elm_pred. destruct l as [|x l]; [exact I|]. cbn. destruct (is_ascii_alpha x) eqn:E; [|reflexivity].
    exfalso. apply H. left. now apply letter_alpha.
  - apply r_elm_of. destruct l as [|x l]; [exact I|]. intros Hc. apply H. now right.
Qed.
Lemma a_path_element : forall c rest, c <> [] -> Forall path_letter c -> match rest with [] => True | x :: _ => ~ path_letter x end ->
  acc path_element c rest c.
Proof.
  intros c rest Hne Hc Hr. unfold path_element. eapply a_collect. eapply a_many1 with (vs := c); [|apply r_path_char, Hr|exact Hne].
  clear Hne. induction Hc as [|x c Hx Hc IH]; [constructor|]. change (x :: c) with ([x] ++ c) at 1.
  constructor; [now apply a_path_char|discriminate|exact IH].
Qed.
Lemma r_path_element : forall l, match l with [] => True | x :: _ => ~ path_letter x end -> rej path_element l false.
Proof. intros l H. eapply r_collect, r_many1, r_path_char, H. Qed.
Lemma stop_no_letter : forall l, path_stop l -> match l with [] => True | x :: _ => ~ path_letter x end.
Proof. intros [|x l] H; [exact I|apply H]. Qed.
Lemma path_chain : forall p rest, g_path p -> path_stop rest ->
  exists c t vs, p = c ++ t /\ acc path_element c (t ++ rest) c /\ c <> [] /\ schain path_element (p_elm (chr ".")) t rest vs /\
    match t ++ rest with [] => True | x :: _ => ~ path_letter x end.
Proof.
  intros p rest Hp Hr. induction Hp as [c Hne Hc|c p Hne Hc Hp (c2 & t & vs & -> & A & N2 & C & Hh)].
  - exists c, [], []. rewrite app_nil_r. repeat split; [|exact Hne|constructor|now apply stop_no_letter]. apply a_path_element; [exact Hne|exact Hc|now apply stop_no_letter].
  - assert (Hd : match (bs "." ++ c2 ++ t) ++ rest with [] => True | x :: _ => ~ path_letter x end).
    { cbn. unfold path_letter, letter. cbn. intros [H|[H|[H|[]]]]; [lia|discriminate|discriminate]. }
    exists c, (bs "." ++ c2 ++ t), (c2 :: vs). repeat split; [|exact Hne| |exact Hd].
    + apply a_path_element; [exact Hne|exact Hc|exact Hd].
    + econstructor; [apply a_elm|exact A|discriminate|exact C].
Qed.
Lemma letter_ascii : forall x, path_letter x -> (x < 128)%N.
Proof. intros x [H|H]; [unfold letter in H; lia|]. cbn in H. destruct H as [<-|[<-|[]]]; reflexivity. Qed.
Lemma path_ascii : forall p, g_path p -> Forall (fun x => (x < 128)%N) p.
Proof.
  intros p H. assert (C : forall c, Forall path_letter c -> Forall (fun x => (x < 128)%N) c) by (intros c Hc; eapply Forall_impl; [apply letter_ascii|exact Hc]).
  induction H as [c _ Hc|c p _ Hc _ IH]; [now apply C|]. apply Forall_app. split; [now apply C|]. constructor; [reflexivity|exact IH].
Qed.
Lemma g_path_hd : forall p, g_path p -> exists x t, p = x :: t /\ path_letter x.
Proof. intros p H. destruct H as [[|x c] Hne Hc|[|x c] p Hne Hc _]; try congruence; inv Hc; [now exists x, c|now exists x, (c ++ bs "." ++ p)]. Qed.
Lemma a_path_text : forall p rest, g_path p -> path_stop rest -> acc (p_map_res (p_collect (p_many1_sep path_element (p_elm (chr ".")))) from_utf8) p rest p.
Proof.
  intros p rest Hp Hr. destruct (@path_chain _ _ Hp Hr) as (c & t & vs & E & A & _ & C & _).
  eapply a_map_res; [|apply ascii_utf8; now apply path_ascii]. rewrite E. eapply a_collect. unfold p_many1_sep.
  eapply a_repeat_sep; [exact A|exact C| |lia]. apply r_elm. destruct rest; [exact I|apply Hr].
Qed.
Lemma r_path_text : forall l, match l with [] => True | x :: _ => ~ path_letter x end -> rej (p_map_res (p_collect (p_many1_sep path_element (p_elm (chr ".")))) from_utf8) l false.
Proof. intros l H. eapply r_map_res, r_collect, r_many1_sep, r_path_element, H. Qed.
Lemma solid_letter : forall x l, path_letter x -> solid (x :: l).
Proof.
  intros x l H. apply solid_hd. unfold path_letter, letter in H. cbn in *. intros Hc. destruct H as [H|[H|[H|[]]]]; lia.
Qed.
Lemma ws_path_stop : forall w l, ws w -> path_stop l -> path_stop (w ++ l).
Proof.
  intros [|x w] l Hw Hl; [exact Hl|]. inv Hw. cbn in *. unfold path_letter, letter. cbn. split; lia.
Qed.

(** What may come after a key. *)
Lemma block_path_stop : forall b l, block b -> path_stop l -> path_stop (b ++ l).
Proof.
  intros b l (w & cs & -> & Hw & Hc) Hl. rewrite <- app_assoc. apply ws_path_stop; [exact Hw|].
  destruct Hc as [|c cs Hc _]; [exact Hl|]. cbn. destruct Hc as (h & t & y & -> & [->| ->] & _); cbn; unfold path_letter, letter; cbn; (split; [lia|discriminate]).
Qed.
Lemma gap_path_stop : forall g l, gap g -> path_stop l -> path_stop (g ++ l).
Proof. intros g l (b & w & -> & Hb & Hw) Hl. rewrite <- app_assoc. apply block_path_stop; [exact Hb|]. now apply ws_path_stop. Qed.
Lemma key_hd : forall k s, g_key k s -> exists x t, s = x :: t /\ (path_letter x \/ x = 34%N).
Proof.
  intros k s [[-> H]|(is & _ & _ & -> & _)]; [|cbn; eauto].
  destruct (g_path_hd H) as (x & t & -> & Hx). eauto.
Qed.
Lemma key_solid : forall k s l, g_key k s -> solid (s ++ l).
Proof. intros k s l H. destruct (key_hd H) as (x & t & -> & [Hx| ->]); [now apply solid_letter|cbn [app]; shd]. Qed.
(** One layout parser before the key and one after it. *)
Lemma a_key : forall k s a b rest, g_key k s -> skips a (s ++ b ++ rest) -> skips b rest -> path_stop (b ++ rest) -> skips [] rest ->
  acc key_p (a ++ s ++ b) rest k.
Proof.
  intros k s a b rest H Ha Hb Hs Hn. unfold key_p. destruct H as [[-> H]|H].
  - apply a_spaced; [exact Ha| |exact Hb]. apply a_or1, a_attempt. now apply a_path_text.
  - replace (a ++ s ++ b) with (a ++ (s ++ b) ++ []) by (now rewrite app_nil_r). apply a_spaced; [cbn [app]; rewrite <- app_assoc; exact Ha| |exact Hn].
    cbn [app]. apply a_or2; [|now apply a_quoted]. eapply r_attempt, r_path_text.
    destruct H as (is & _ & _ & -> & _). cbn. unfold path_letter, letter. cbn. lia.
Qed.
(** The same when the layout after the key is left in two parts: a quoted key takes both, a path the first. *)
Lemma a_key2 : forall k s a g rest, g_key k s -> skips a (s ++ g ++ rest) -> gap g -> solid rest -> path_stop rest ->
  exists b1 b2, g = b1 ++ b2 /\ acc key_p (a ++ s ++ b1) (b2 ++ rest) k /\ skips b2 rest /\ ws b2.
Proof.
  intros k s a g rest H Ha Hg Hr Hp. destruct (@gap_split _ _ Hg Hr) as (g1 & g2 & -> & S1 & S2 & W2). destruct H as [[-> H]|H].
  - exists g1, g2. repeat split; [|exact S2|exact W2]. unfold key_p. apply a_spaced; [rewrite <- app_assoc in Ha; exact Ha| |exact S1]. apply a_or1, a_attempt. apply a_path_text; [exact H|].
    rewrite app_assoc. now apply gap_path_stop.
  - exists (g1 ++ g2), []. rewrite app_nil_r. repeat split; [|now apply skips_nil|constructor]. unfold key_p.
    replace (a ++ s ++ g1 ++ g2) with (a ++ (s ++ g1) ++ g2) by now rewrite !app_assoc.
    apply a_spaced; [rewrite <- !app_assoc in Ha |- *; exact Ha| |exact S2].
    apply a_or2; [|now apply a_quoted]. eapply r_attempt, r_path_text.
    destruct H as (is & _ & _ & -> & _). cbn. unfold path_letter, letter. cbn. lia.
Qed.

(** ** Values *)
Section Values.
Variable D : Type.
Variable dec : list N -> option D.
Notation cv := (cv D).
Notation key := (list N).
Notation value_fuel := (value_fuel dec).
Notation property_fuel := (property_fuel dec).
Notation array_cv := (@array_cv D).
Notation object_cv := (@object_cv D).
Notation property_step := (@property_step D).
Notation hval := (hval dec).
Notation harr := (harr dec).
Notation hobj := (hobj dec).
Notation helems := (helems dec).
Notation hmembers := (hmembers dec).
Notation hmember := (hmember dec).
Notation hroot := (hroot dec).
Notation hdoc := (hdoc dec).

Definition core (value : parser N cv) (prop : parser N (key * cv)) : parser N cv :=
  p_or (p_or (p_or (p_or (p_attempt (array_cv value)) (p_attempt (object_cv prop))) (p_attempt (reference_cv D))) (p_attempt (simple_cv dec)))
    (enumeration_cv D).
Lemma a_value : forall n a s b rest v, skips a (s ++ b ++ rest) -> acc (core (value_fuel n) (property_fuel n)) s (b ++ rest) v -> skips b rest ->
  acc (value_fuel (S n)) (a ++ s ++ b) rest v.
Proof. intros n a s b rest v H1 H2 H3. change (value_fuel (S n)) with (spaced (core (value_fuel n) (property_fuel n))). now apply a_spaced. Qed.

Lemma r_array : forall value a l, skips a l -> match l with [] => True | x :: _ => x <> 91%N end -> rej (array_cv value) (a ++ l) false.
Proof. intros. apply r_map, r_surround1, r_spaced; [assumption|now apply r_elm_ref]. Qed.
Lemma r_object : forall prop a l, skips a l -> match l with [] => True | x :: _ => x <> 123%N end -> rej (object_cv prop) (a ++ l) false.
Proof. intros. apply r_map, r_surround1, r_spaced; [assumption|now apply r_elm_ref]. Qed.
Lemma r_reference : forall a l, skips a l -> match l with [] => True | x :: _ => x <> 36%N end -> rej (reference_cv D) (a ++ l) false.
Proof. intros. apply r_map, r_surround1, r_spaced; [assumption|now apply r_seqN]. Qed.
Lemma a_core_simple : forall value prop a s rest v, skips a (s ++ rest) -> (exists x t, s = x :: t /\ x <> 91%N /\ x <> 123%N /\ x <> 36%N) ->
  forall b, acc (simple_cv dec) (a ++ s ++ b) rest v -> skips a (s ++ b ++ rest) -> acc (core value prop) (a ++ s ++ b) rest v.
Proof.
  intros value prop a s rest v _ (x & t & -> & H1 & H2 & H3) b A Ha. unfold core. apply a_or1. apply a_or2; [|now apply a_attempt].
  rewrite <- !app_assoc in *. repeat apply r_or; eapply r_attempt; [apply r_array|apply r_object|apply r_reference]; assumption.
Qed.
(** A word at the start of a simple value. *)
Lemma r_word : forall w (v : cv) l, ~ prefix w l -> rej (p_attempt (p_map (p_seqN w) (fun _ => v))) l false.
Proof. intros w v l H. apply rejx_attempt, rejx_map, rejx_seq, H. Qed.
Lemma r_words : forall l, ~ prefix (bs "null") l -> ~ prefix (bs "true") l -> ~ prefix (bs "false") l ->
  rej (p_or (p_or (p_attempt (p_map (p_seqN (bs "null")) (fun _ => @CNull D))) (p_attempt (p_map (p_seqN (bs "true")) (fun _ => @CBool D true))))
    (p_attempt (p_map (p_seqN (bs "false")) (fun _ => @CBool D false)))) l false.
Proof. intros l H1 H2 H3. repeat apply r_or; now apply r_word. Qed.
Lemma no_words : forall x l, ~ In x (bs "ntf") -> ~ prefix (bs "null") (x :: l) /\ ~ prefix (bs "true") (x :: l) /\ ~ prefix (bs "false") (x :: l).
Proof. intros x l H. cbn in H. repeat split; apply prefix_hd; intros ->; tauto. Qed.
Lemma rejx_and2 : forall A B (p : parser N A) (q : parser N B) s rest a, acc p s rest a -> rejx q rest -> rejx (p_and p q) (s ++ rest).
Proof.
  intros A B p q s rest a H1 H2 pre. unfold p_and. rewrite H1. destruct (H2 (pre ++ s)) as (e & c & E).
  rewrite app_length, <- app_assoc in E. rewrite E. eauto.
Qed.
Lemma rej_rejx : forall A (p : parser N A) l c, rej p l c -> rejx p l.
Proof. intros A p l c H pre. destruct (H pre) as [e E]. eauto. Qed.
Lemma r_durnum : forall x l, x <> 45%N -> ~ digit x -> solid (x :: l) ->
  rej (p_attempt (duration_value dec)) (x :: l) false /\ rej (p_attempt (p_map (number_value dec) (@CNum D))) (x :: l) false.
Proof.
  intros x l H1 H2 H3. pose proof (r_hnumber H1 H2 H3) as R. split; eapply r_attempt, r_map; [eapply r_and1|]; apply r_map_panic; exact R.
Qed.
Lemma g_quoted_hd : forall v s, g_quoted v s -> exists t, s = 34%N :: t.
Proof. intros v s (is & _ & _ & -> & _). cbn. eauto. Qed.
Lemma a_simple : forall a s b rest v, skips a (s ++ b ++ rest) -> skips b rest -> acc (p_or (p_or (p_or (p_or (p_or
    (p_attempt (p_map (p_seqN (bs "null")) (fun _ => @CNull D)))
    (p_attempt (p_map (p_seqN (bs "true")) (fun _ => @CBool D true))))
    (p_attempt (p_map (p_seqN (bs "false")) (fun _ => @CBool D false))))
    (p_attempt (duration_value dec)))
    (p_attempt (p_map (number_value dec) (@CNum D))))
    (string_cv D)) s (b ++ rest) v -> acc (simple_cv dec) (a ++ s ++ b) rest v.
Proof. intros a s b rest v H1 H2 H3. unfold simple_cv. now apply a_spaced. Qed.

(** *** Scalar values at the head of a value parser.  [g1] and [g2] are the parts of the layout after the value. *)
Definition tail_ok (g1 g2 f : list N) : Prop := skips g1 (g2 ++ f) /\ skips g2 f /\ ws g2 /\ solid f.
(** The head of the value parser takes the first part of the layout, or all of it. *)
Definition head_ok (p : parser N cv) (a s g1 g2 f : list N) (v : cv) : Prop :=
  acc p (a ++ s ++ g1) (g2 ++ f) v \/ acc p (a ++ s ++ g1 ++ g2) f v.
Lemma core_simple : forall value prop a s g1 g2 f v, skips a (s ++ g1 ++ g2 ++ f) ->
  (exists x t, s = x :: t /\ x <> 91%N /\ x <> 123%N /\ x <> 36%N) ->
  head_ok (simple_cv dec) a s g1 g2 f v -> head_ok (core value prop) a s g1 g2 f v.
Proof.
  intros value prop a s g1 g2 f v Ha (x & t & -> & H1 & H2 & H3) H.
  assert (R : rej (p_or (p_or (p_attempt (array_cv value)) (p_attempt (object_cv prop))) (p_attempt (reference_cv D))) (a ++ (x :: t) ++ g1 ++ g2 ++ f) false).
  { repeat apply r_or; eapply r_attempt; [apply r_array|apply r_object|apply r_reference]; assumption. }
  unfold core. destruct H as [H|H]; [left|right]; apply a_or1; (apply a_or2; [rewrite <- !app_assoc; exact R|now apply a_attempt]).
Qed.
Lemma head_word : forall a w g1 g2 f v, In (w, v) [(bs "null", CNull); (bs "true", CBool true); (bs "false", CBool false)] ->
  skips a (w ++ g1 ++ g2 ++ f) -> tail_ok g1 g2 f -> acc (simple_cv dec) (a ++ w ++ g1) (g2 ++ f) v.
Proof.
  intros a w g1 g2 f v Hin Ha (S1 & S2 & W & Sf). apply a_simple; [exact Ha|exact S1|].
  do 3 apply a_or1. cbn [In] in Hin. destruct Hin as [E|[E|[E|[]]]]; inversion E; subst w v.
  - apply a_or1, a_or1. eapply a_attempt, (a_map (fun _ => CNull)), a_seqN.
  - apply a_or1, a_or2; [apply r_word, prefix_hd; discriminate|]. eapply a_attempt, (a_map (fun _ => CBool true)), a_seqN.
  - apply a_or2; [apply r_or; apply r_word, prefix_hd; discriminate|]. eapply a_attempt, (a_map (fun _ => CBool false)), a_seqN.
Qed.
Lemma head_num : forall a s g1 g2 f d, g_unsigned s -> dec s = Some d -> no_num (g1 ++ g2 ++ f) -> no_unit f ->
  skips a (s ++ g1 ++ g2 ++ f) -> tail_ok g1 g2 f -> acc (simple_cv dec) (a ++ s ++ g1 ++ g2) f (CNum d).
Proof.
  intros a s g1 g2 f d Hs Hd Hn Hu Ha (S1 & S2 & W & Sf). destruct (@a_hnumber D dec s g1 (g2 ++ f) Hs Hn S1) as (x & Ax & Ex).
  assert (An : acc (number_value dec) (s ++ g1) (g2 ++ f) d) by (eapply a_map_panic; [exact Ax|now rewrite Ex]).
  destruct (g_unsigned_hd Hs) as (y & t & -> & Hy).
  rewrite (app_assoc (y :: t)). apply a_simple; [rewrite <- app_assoc; exact Ha|exact S2|].
  apply a_or1, a_or2; [|now apply a_attempt, a_map]. apply r_or.
  - rewrite <- !app_assoc. destruct (@no_words y (t ++ g1 ++ g2 ++ f)) as (N1 & N2 & N3); [|now apply r_words].
    unfold digit in Hy. cbn. lia.
  - apply rejx_attempt, rejx_map. eapply rejx_and2; [exact An|]. now apply r_unit.
Qed.
Lemma unit_hd : forall t u, g_unit t u -> exists x r, t = x :: r /\ letter x /\ x <> 101%N /\ x <> 69%N.
Proof.
  intros t u H. unfold g_unit in H. cbn [In] in H. repeat (destruct H as [H|H]); try contradiction; inversion H; subst; cbn; do 2 eexists; (split; [reflexivity|]); unfold letter; (split; [lia|split; discriminate]).
Qed.
Lemma ws_no_num : forall w l, ws w -> no_num l -> no_num (w ++ l).
Proof. intros [|x w] l Hw Hl; [exact Hl|]. inv Hw. cbn in *. unfold digit. lia. Qed.
Lemma head_dur : forall a s w t g1 g2 f d u, g_unsigned s -> dec s = Some d -> ws w -> g_unit t u ->
  match g1 ++ g2 ++ f with [] => True | x :: _ => ~ letter x end ->
  skips a ((s ++ w ++ t) ++ g1 ++ g2 ++ f) -> tail_ok g1 g2 f -> acc (simple_cv dec) (a ++ (s ++ w ++ t) ++ g1) (g2 ++ f) (CDur d u).
Proof.
  intros a s w t g1 g2 f d u Hs Hd Hw Ht Hn Ha (S1 & S2 & W & Sf). destruct (unit_hd Ht) as (x & r & Et & Hx & X1 & X2).
  assert (St : forall l, solid (t ++ l)) by (intros l; rewrite Et; cbn [app]; apply solid_letter; now left).
  destruct (@a_hnumber D dec s w (t ++ g1 ++ g2 ++ f) Hs) as (y & Ay & Ey).
  { apply ws_no_num; [exact Hw|]. rewrite Et. cbn. unfold letter, digit in *. split; [lia|]. intros [<-|[<-|[<-|[]]]]; lia. }
  { apply skips_ws; [exact Hw|apply St]. }
  destruct (g_unsigned_hd Hs) as (z & s' & Es & Hz).
  apply a_simple; [exact Ha|exact S1|]. apply a_or1, a_or1, a_or2.
  - rewrite <- !app_assoc, Es. destruct (@no_words z (s' ++ w ++ t ++ g1 ++ g2 ++ f)) as (N1 & N2 & N3); [|now apply r_words].
    unfold digit in Hz. cbn. lia.
  - apply a_attempt. unfold duration_value. eapply a_map_eq with (v := (d, u)); [|reflexivity]. unfold duration. rewrite app_assoc. eapply a_and.
    + eapply a_map_panic; [exact Ay|now rewrite Ey].
    + now apply a_unit.
Qed.
Lemma r_before_string : forall x l, ~ prefix (bs "null") (x :: l) -> ~ prefix (bs "true") (x :: l) -> ~ prefix (bs "false") (x :: l) ->
  x <> 45%N -> ~ digit x -> solid (x :: l) ->
  rej (p_or (p_or (p_or (p_or
    (p_attempt (p_map (p_seqN (bs "null")) (fun _ => @CNull D)))
    (p_attempt (p_map (p_seqN (bs "true")) (fun _ => @CBool D true))))
    (p_attempt (p_map (p_seqN (bs "false")) (fun _ => @CBool D false))))
    (p_attempt (duration_value dec)))
    (p_attempt (p_map (number_value dec) (@CNum D)))) (x :: l) false.
Proof.
  intros x l W1 W2 W3 H1 H2 H3. destruct (r_durnum H1 H2 H3) as [R1 R2]. apply r_or; [|exact R2]. apply r_or; [|exact R1]. now apply r_words.
Qed.
Lemma head_quoted : forall a v s g1 g2 f, g_quoted v s -> skips a (s ++ g1 ++ g2 ++ f) -> tail_ok g1 g2 f ->
  acc (simple_cv dec) (a ++ s ++ g1 ++ g2) f (CStr v).
Proof.
  intros a v s g1 g2 f Hs Ha (S1 & S2 & W & Sf). rewrite (app_assoc s). apply a_simple; [rewrite <- app_assoc; exact Ha|exact S2|].
  apply a_or2; [|apply a_map; now apply a_quoted]. destruct (g_quoted_hd Hs) as [t ->]. cbn [app].
  destruct (@no_words 34%N ((t ++ g1) ++ g2 ++ f)) as (N1 & N2 & N3); [lits|]. apply r_before_string; [assumption|assumption|assumption|discriminate|unfold digit; lia|shd].
Qed.
Lemma bare_prefix : forall s rest w, match rest with [] => True | x :: _ => newline x end -> Forall (fun x => ~ newline x) w ->
  prefix w (s ++ rest) -> exists t, s = w ++ t.
Proof.
  intros s rest w Hr Hw [r E]. apply app_eq_app in E. destruct E as [l [[-> E]|[-> E]]]; [now exists l|].
  destruct l as [|x l]; [exists []; now rewrite !app_nil_r|]. subst rest. exfalso. apply Forall_app in Hw. destruct Hw as [_ Hw]. inv Hw. contradiction.
Qed.
Lemma bare_solid : forall s rest, g_bare s -> match rest with [] => True | x :: _ => newline x end -> solid (s ++ rest).
Proof.
  intros s rest (Hf & _ & (x & t & -> & Hx & _) & _ & Hc & _) Hr. inv Hf. cbn in *. repeat split.
  - intuition congruence.
  - intuition congruence.
  - intros ->. destruct t as [|y t]; cbn.
    + destruct rest as [|z rest]; [exact I|]. intros ->. destruct Hr; discriminate.
    + intros ->. now apply (Hc [] t).
Qed.
Lemma bare_hd : forall s, g_bare s -> exists x t, s = x :: t /\ ~ In x forbidden /\ ~ digit x /\ x <> 45%N.
Proof. intros s (Hf & _ & (x & t & -> & Hx & Hd & Hm) & _). inv Hf. eauto 10. Qed.
Lemma head_bare : forall a s g1 g2 f, g_bare s -> match g1 ++ g2 ++ f with [] => True | x :: _ => newline x end ->
  skips a (s ++ g1 ++ g2 ++ f) -> tail_ok g1 g2 f -> acc (simple_cv dec) (a ++ s ++ g1) (g2 ++ f) (CStr s).
Proof.
  intros a s g1 g2 f Hs Hr Ha (S1 & S2 & W & Sf). pose proof (@bare_solid _ _ Hs Hr) as Sol. apply a_simple; [exact Ha|exact S1|]. apply a_or2.
  - destruct (bare_hd Hs) as (x & t & E & Hx & Hd & Hm). destruct Hs as (_ & _ & _ & _ & _ & Hw).
    assert (Np : forall w, In w [bs "null"; bs "true"; bs "false"] -> ~ prefix w (s ++ g1 ++ g2 ++ f)).
    { intros w Hin Hp. apply bare_prefix in Hp; [|exact Hr|].
      - destruct Hp as [u Hu]. now apply (Hw w u Hin).
      - cbn [In] in Hin. destruct Hin as [<-|[<-|[<-|[]]]]; repeat constructor; intros [H|H]; discriminate. }
    rewrite E in *. apply r_before_string; try (apply Np; cbn; tauto); assumption.
  - apply a_map. destruct (bare_hd Hs) as (x & t & E & _). destruct Hs as (Hf & Hv & _).
    apply a_bare_run; [|subst s; discriminate|exact Hv| |exact Sol].
    + eapply Forall_impl; [|exact Hf]. intros y Hy Hc. apply Hy. unfold stop_char in Hc. cbn in *. intuition.
    + destruct (g1 ++ g2 ++ f) as [|y l]; [exact I|]. destruct Hr as [->| ->]; split; try discriminate; cbn; tauto.
Qed.
Lemma path_stop_hd : forall x l, ~ letter x -> ~ In x (bs "-_.") -> path_stop (x :: l).
Proof. intros x l H1 H2. cbn in *. unfold path_letter. cbn. intuition. Qed.
Lemma head_ref : forall value prop a (opt : bool) w1 p w2 g1 g2 f, ws w1 -> g_path p -> ws w2 ->
  skips a ((bs "${" ++ w1 ++ (if opt then bs "?" else []) ++ p ++ w2 ++ bs "}") ++ g1 ++ g2 ++ f) -> tail_ok g1 g2 f ->
  acc (core value prop) (a ++ (bs "${" ++ w1 ++ (if opt then bs "?" else []) ++ p ++ w2 ++ bs "}") ++ g1) (g2 ++ f) (CRef None p opt).
Proof.
  intros value prop a opt w1 p w2 g1 g2 f Hw1 Hp Hw2 Ha (S1 & S2 & W & Sf). destruct (g_path_hd Hp) as (x & t & Ep & Hx).
  unfold core. apply a_or1, a_or1, a_or2.
  - rewrite <- app_assoc. apply r_or; eapply r_attempt; [apply r_array|apply r_object]; try (rewrite <- app_assoc in Ha |- *; exact Ha); discriminate.
  - apply a_attempt. unfold reference_cv. eapply a_map_eq with (v := (opt, p)); [|reflexivity]. unfold reference.
    set (q := if opt then bs "?" else []) in *.
    replace (a ++ (bs "${" ++ w1 ++ q ++ p ++ w2 ++ bs "}") ++ g1) with ((a ++ bs "${" ++ w1) ++ (q ++ p) ++ (w2 ++ bs "}" ++ g1)) by (rewrite <- !app_assoc; reflexivity).
    assert (Sq : forall l, solid ((q ++ p) ++ l)).
    { intros l. unfold q. rewrite Ep. destruct opt; cbn [app]; [shd|now apply solid_letter]. }
    eapply a_surround.
    + apply a_spaced; [repeat rewrite <- app_assoc in Ha; repeat rewrite <- app_assoc; exact Ha|apply a_seqN|]. apply skips_ws; [exact Hw1|apply Sq].
    + eapply a_and.
      * unfold q. destruct opt.
        -- eapply a_map_eq; [apply a_opt, a_elm_ref|reflexivity].
        -- eapply a_map_eq; [eapply a_opt_none, r_elm_ref|reflexivity]. rewrite Ep. cbn. intros ->. destruct Hx as [Hx|Hx]; [unfold letter in Hx; cbn in Hx; lia|].
           cbn in Hx. destruct Hx as [Hx|[Hx|[]]]; discriminate.
      * apply a_path_text; [exact Hp|]. rewrite <- app_assoc. apply ws_path_stop; [exact Hw2|]. apply path_stop_hd; [unfold letter; cbn; lia|lits].
    + apply a_spaced; [apply skips_ws; [exact Hw2|cbn [app bs]; shd]|apply a_seqN|exact S1].
Qed.

(** *** Where values and members end *)
Ltac asc := repeat match goal with H : context [(_ ++ _) ++ _] |- _ => rewrite <- app_assoc in H end; repeat rewrite <- app_assoc.
Lemma r_value_close : forall n z l, skips z (93%N :: l) -> rej (value_fuel (S n)) (z ++ 93%N :: l) false.
Proof.
  intros n z l Hz. change (value_fuel (S n)) with (spaced (core (value_fuel n) (property_fuel n))).
  apply r_spaced; [exact Hz|]. set (m := 93%N :: l).
  assert (Sm : solid m) by (unfold m; shd). assert (Em : str_end m) by (split; [cbn; tauto|discriminate]).
  assert (Rs : rej (string_cv D) m false) by (apply r_map, r_hstring_end; [exact Sm|exact Em|split; discriminate]).
  assert (S0 : skips [] m) by now apply skips_nil.
  unfold core. repeat apply r_or.
  - eapply r_attempt. apply (@r_array (value_fuel n) [] m S0). discriminate.
  - eapply r_attempt. apply (@r_object (property_fuel n) [] m S0). discriminate.
  - eapply r_attempt. apply (@r_reference [] m S0). discriminate.
  - eapply r_attempt. apply r_spaced0; [exact Sm|]. apply r_or; [|exact Rs].
    destruct (@no_words 93%N l) as (N1 & N2 & N3); [lits|]. apply r_before_string; [exact N1|exact N2|exact N3|discriminate|unfold digit; lia|exact Sm].
  - apply r_map. eapply r_many1. apply r_or; [eapply r_attempt, Rs|]. apply (@r_reference [] m S0). discriminate.
Qed.
Lemma r_rest : forall value prop b f, ws b -> skips b f -> match f with [] => True | x :: _ => ~ In x (bs "=:{[") end ->
  rej (p_or (p_or (p_attempt (p_skip_left kv (p_lazy (fun _ => value)))) (p_attempt (object_cv prop))) (array_cv value)) (b ++ f) false.
Proof.
  intros value prop b f Hb Sb Hf. repeat apply r_or.
  - eapply r_attempt, r_skip_left1, r_discard, r_elm_ref_of. destruct b as [|x b].
    + cbn [app]. destruct f as [|x f]; [exact I|]. cbn -[set_contains]. apply set_not_in. cbn in Hf |- *. tauto.
    + inv Hb. cbn -[set_contains]. apply set_not_in. cbn in *. intros Hc. lia.
  - eapply r_attempt. apply r_object; [exact Sb|]. destruct f as [|x f]; [exact I|]. cbn in Hf. intros ->. tauto.
  - apply r_array; [exact Sb|]. destruct f as [|x f]; [exact I|]. cbn in Hf. intros ->. tauto.
Qed.
Lemma r_prop_run : forall value prop z y l, ~ stop_char y -> ~ path_letter y -> solid (y :: l) -> brace_ok (y :: l) -> skips z (y :: l) ->
  rej (property_step value prop) (z ++ y :: l) false.
Proof.
  intros value prop z y l Hy Hp Sy (r & g & f & E & Hr & Hg & Gg & Sf & Hf) Sz.
  destruct r as [|y' r].
  { exfalso. cbn [app] in E. rewrite <- E in Hg. now destruct Hg. }
  inversion E; subst y' l. destruct (@gap_split _ _ Gg Sf) as (g1 & g2 & -> & S1 & S2 & W2).
  change (y :: r ++ (g1 ++ g2) ++ f) with ((y :: r) ++ (g1 ++ g2) ++ f) in *.
  assert (He : str_end ((g1 ++ g2) ++ f)) by exact Hg.
  assert (Rp : rej (p_attempt path_p) ((y :: r) ++ (g1 ++ g2) ++ f) false).
  { eapply r_attempt. unfold path_p. apply r_path_text. exact Hp. }
  assert (Ru : rej (p_or (p_attempt (p_surround double_quote string_surround double_quote))
            (p_attempt (p_surround single_quote string_surround single_quote))) ((y :: r) ++ (g1 ++ g2) ++ f) false).
  { apply hstring_unquoted; [exact Sy|]. cbn. split; intros ->; apply Hy; cbn; tauto. }
  unfold property_step. destruct (@run_surround (y :: r) ((g1 ++ g2) ++ f) Hr ltac:(discriminate) He) as [A|R].
  - rewrite <- app_assoc in *. rewrite (app_assoc z), (app_assoc (z ++ _)), <- (app_assoc z). eapply r_and2.
    + unfold key_p. apply a_spaced; [exact Sz| |exact S1]. apply a_or2; [exact Rp|]. unfold hstring. apply a_map. apply a_or2; [exact Ru|exact A].
    + now apply r_rest.
  - apply r_and1. unfold key_p. apply r_spaced; [exact Sz|]. apply r_or; [exact Rp|]. unfold hstring. apply r_map. now apply r_or.
Qed.
Lemma r_prop_brace : forall value prop z l, skips z (125%N :: l) -> brace_ok l -> rej (property_step value prop) (z ++ 125%N :: l) false.
Proof.
  intros value prop z l Sz (r & g & f & -> & Hr & Hg). apply r_prop_run; [|unfold path_letter, letter; cbn; lia|shd| |exact Sz].
  - unfold stop_char. lits.
  - exists (125%N :: r), g, f. split; [reflexivity|]. split; [|exact Hg]. constructor; [unfold stop_char; lits|exact Hr].
Qed.
Lemma a_comma : forall a b rest, skips a (44%N :: b ++ rest) -> skips b rest -> acc comma (a ++ bs "," ++ b) rest (chr ",").
Proof. intros a b rest H1 H2. unfold comma. apply a_spaced; [exact H1|apply a_elm_ref|exact H2]. Qed.
Lemma r_comma : forall z l, skips z l -> match l with [] => True | x :: _ => x <> 44%N end -> rej comma (z ++ l) false.
Proof. intros z l H1 H2. unfold comma. apply r_spaced; [exact H1|now apply r_elm_ref]. Qed.

(** *** First characters *)
Lemma hval_hd : forall s g f v, hval s g f v -> solid (s ++ g ++ f).
Proof.
  intros s g f v H. destruct H as [| | |s g f d Hs|s w t g f d u Hs|v s g f Hs|s g f Hs Hr|o w1 p w2 g f|s g f v H|s g f v H]; try (cbn [app bs]; shd).
  - destruct (g_unsigned_hd Hs) as (x & t & -> & Hx). now apply solid_digit.
  - destruct (g_unsigned_hd Hs) as (x & t' & -> & Hx). now apply solid_digit.
  - destruct (g_quoted_hd Hs) as [t ->]. cbn [app]. shd.
  - now apply bare_solid.
  - destruct H; cbn [app bs]; shd.
  - destruct H; cbn [app bs]; shd.
Qed.
Lemma helems_hd : forall s f vs, helems s f vs -> solid (s ++ f).
Proof. intros s f vs H. destruct H as [s b f v Hb H|s b a f v Hb Ha H|s b a t f v vs Hb Ha H _]; apply hval_hd in H; now asc. Qed.
Lemma hmember_hd : forall m g f k v, hmember m g f k v -> exists x t, m = x :: t /\ (path_letter x \/ x = 34%N).
Proof. intros m g f k v H. destruct H as [k kt a c b s g f v Hk|k kt a s g f v Hk|k kt a s g f v Hk]; destruct (key_hd Hk) as (x & t & -> & Hx); cbn; eauto. Qed.
Lemma member_hd_solid : forall x l, path_letter x \/ x = 34%N -> solid (x :: l).
Proof. intros x l [H| ->]; [now apply solid_letter|shd]. Qed.
Lemma member_hd_comma : forall x, path_letter x \/ x = 34%N -> x <> 44%N.
Proof. intros x [H| ->]; [|discriminate]. intros ->. unfold path_letter, letter in H. cbn in H. lia. Qed.
Lemma hmember_solid : forall m g f k v l, hmember m g f k v -> solid (m ++ l).
Proof. intros m g f k v l H. destruct (hmember_hd H) as (x & t & -> & Hx). now apply member_hd_solid. Qed.
Lemma hmembers_hd : forall s f ps, hmembers s f ps -> exists x t, s = x :: t /\ (path_letter x \/ x = 34%N).
Proof. intros s f ps H. destruct H as [m g f k v _ H|m g a f k v _ _ H|m g a t f k v ps _ _ H _|m g t f k v ps _ _ H _]; destruct (hmember_hd H) as (x & t' & -> & Hx); cbn; eauto. Qed.

(** *** Repeated keys do not occur *)
Lemma hm_set_new : forall V (m : list (key * V)) k v, ~ In k (map fst m) -> hm_set m k v = m ++ [(k, v)].
Proof.
  intros V m k v H. induction m as [|[k' v'] m IH]; [reflexivity|]. cbn [hm_set]. cbn [map fst In] in H.
  destruct (list_eq_dec N.eq_dec k k') as [->|_]; [tauto|]. rewrite IH by tauto. reflexivity.
Qed.
Lemma hm_get_new : forall V (m : list (key * V)) k, ~ In k (map fst m) -> hm_get m k = None.
Proof.
  intros V m k H. induction m as [|[k' v'] m IH]; [reflexivity|]. cbn [hm_get]. cbn [map fst In] in H.
  destruct (list_eq_dec N.eq_dec k k') as [->|_]; [tauto|]. apply IH. tauto.
Qed.
Lemma fold_new : forall (ins : list (key * cv) -> key * cv -> list (key * cv)),
  (forall m e, ~ In (fst e) (map fst m) -> ins m e = m ++ [e]) -> forall l m, NoDup (map fst (m ++ l)) -> fold_left ins l m = m ++ l.
Proof.
  intros ins Hi l. induction l as [|e l IH]; intros m H; [now rewrite app_nil_r|]. cbn [fold_left].
  rewrite map_app in H. cbn [map] in H. rewrite Hi by (intros Hc; apply NoDup_remove_2 in H; apply H; apply in_or_app; now left).
  rewrite IH; [now rewrite <- app_assoc|]. rewrite <- app_assoc, map_app. exact H.
Qed.
Lemma obj_fold_new : forall l : list (key * cv), NoDup (map fst l) -> obj_fold l = l.
Proof.
  intros l H. unfold obj_fold. rewrite fold_new; [reflexivity| |exact H]. intros m [k v] Hk. unfold obj_insert. cbn [fst snd] in *.
  now rewrite hm_get_new, hm_set_new.
Qed.
Lemma top_fold_new : forall l : list (key * cv), NoDup (map fst l) -> top_fold l = l.
Proof.
  intros l H. unfold top_fold. rewrite fold_new; [reflexivity| |exact H]. intros m [k v] Hk. unfold top_insert. cbn [fst snd] in *.
  now rewrite hm_get_new, hm_set_new.
Qed.

(** ** The induction *)
Ltac len := repeat match goal with H : context [length (_ ++ _)] |- _ => rewrite app_length in H end; repeat rewrite app_length;
  repeat match goal with H : context [length (bs ?s)] |- _ => let x := eval compute in (length (bs s)) in change (length (bs s)) with x in H end;
  cbn [List.length] in *; lia.
Definition c_val s g f v := forall n a1 a2 g1 g2, length s < n -> g = g1 ++ g2 -> tail_ok g1 g2 f ->
  skips a1 (a2 ++ s ++ g ++ f) -> skips a2 (s ++ g ++ f) -> acc (value_fuel n) (a1 ++ a2 ++ s ++ g) f v.
Definition c_arr s g f v := forall n a g1 g2, length s <= n -> g = g1 ++ g2 -> tail_ok g1 g2 f -> skips a (s ++ g ++ f) ->
  acc (array_cv (value_fuel n)) (a ++ s ++ g1) (g2 ++ f) v.
Definition c_obj s g f v := forall n a g1 g2, length s <= n -> g = g1 ++ g2 -> tail_ok g1 g2 f -> skips a (s ++ g ++ f) ->
  acc (object_cv (property_fuel n)) (a ++ s ++ g1) (g2 ++ f) v.
Definition c_elems s f vs := forall n a, length s < n -> solid f -> match f with [] => True | x :: _ => x <> 44%N end -> skips a (s ++ f) ->
  exists v vs' s1 t d z, vs = v :: vs' /\ s = s1 ++ t ++ d ++ z /\ acc (value_fuel n) (a ++ s1) (t ++ d ++ z ++ f) v /\
    schain (value_fuel n) comma t (d ++ z ++ f) vs' /\ skips z f /\ (d = [] /\ z = [] \/ acc comma d (z ++ f) (chr ",")).
Definition c_members s f ps := forall n a, length s < n -> solid f -> match f with [] => True | x :: _ => x <> 44%N end -> skips a (s ++ f) ->
  exists p ps' s1 t d z w, ps = p :: ps' /\ s = s1 ++ t ++ d ++ z /\ s1 <> [] /\ acc (property_fuel n) (a ++ s1) (t ++ d ++ z ++ f) p /\
    schain (property_fuel n) (p_opt comma) t (d ++ z ++ f) ps' /\ skips z f /\ acc (p_opt comma) d (z ++ f) w.
Definition c_member m g f k v := forall n a g1 g2, length m < n -> g = g1 ++ g2 -> tail_ok g1 g2 f -> skips a (m ++ g ++ f) ->
  acc (property_fuel n) (a ++ m ++ g1) (g2 ++ f) (k, v) \/ acc (property_fuel n) (a ++ m ++ g) f (k, v).

Lemma val_head : forall s g f v, (forall n a g1 g2, length s <= n -> g = g1 ++ g2 -> tail_ok g1 g2 f -> skips a (s ++ g1 ++ g2 ++ f) ->
  head_ok (core (value_fuel n) (property_fuel n)) a s g1 g2 f v) -> c_val s g f v.
Proof.
  intros s g f v H n a1 a2 g1 g2 Hn -> Ht Ha1 Ha2. destruct n as [|n]; [lia|].
  specialize (H n a2 g1 g2 ltac:(lia) eq_refl Ht ltac:(asc; exact Ha2)). destruct Ht as (S1 & S2 & W & Sf). destruct H as [H|H].
  - replace (a1 ++ a2 ++ s ++ g1 ++ g2) with (a1 ++ (a2 ++ s ++ g1) ++ g2) by (now asc). apply a_value; [|exact H|exact S2]. now asc.
  - replace (a1 ++ a2 ++ s ++ g1 ++ g2) with (a1 ++ (a2 ++ s ++ g1 ++ g2) ++ []) by (rewrite app_nil_r; now asc). apply a_value; [|exact H|now apply skips_nil]. cbn [app]. now asc.
Qed.
Lemma val_simple : forall s g f v, (exists x t, s = x :: t /\ x <> 91%N /\ x <> 123%N /\ x <> 36%N) ->
  (forall a g1 g2, g = g1 ++ g2 -> tail_ok g1 g2 f -> skips a (s ++ g1 ++ g2 ++ f) -> head_ok (simple_cv dec) a s g1 g2 f v) -> c_val s g f v.
Proof. intros s g f v Hs H. apply val_head. intros n a g1 g2 _ E Ht Ha. apply core_simple; [exact Ha|exact Hs|]. now apply H. Qed.
Lemma val_arr : forall s g f v, harr s g f v -> c_arr s g f v -> c_val s g f v.
Proof.
  intros s g f v Hv H. apply val_head. intros n a g1 g2 Hn -> Ht Ha. left. unfold core. do 4 apply a_or1. apply a_attempt.
  now apply (H n a g1 g2 Hn eq_refl Ht); asc.
Qed.
Lemma hobj_open : forall s g f v, hobj s g f v -> exists t, s = 123%N :: t.
Proof. intros s g f v H. destruct H; cbn; eauto. Qed.
Lemma harr_open : forall s g f v, harr s g f v -> exists t, s = 91%N :: t.
Proof. intros s g f v H. destruct H; cbn; eauto. Qed.
Lemma val_obj : forall s g f v, hobj s g f v -> c_obj s g f v -> c_val s g f v.
Proof.
  intros s g f v Hv H. apply val_head. intros n a g1 g2 Hn -> Ht Ha. left. unfold core. do 3 apply a_or1. apply a_or2.
  - eapply r_attempt. asc. apply r_array; [exact Ha|]. destruct (hobj_open Hv) as [t ->]. discriminate.
  - apply a_attempt. now apply (H n a g1 g2 Hn eq_refl Ht); asc.
Qed.

Lemma open_spaced : forall c a b rest, skips a (c :: b ++ rest) -> skips b rest -> acc (spaced (p_elm_ref c)) (a ++ [c] ++ b) rest c.
Proof. intros. apply a_spaced; [assumption|apply a_elm_ref|assumption]. Qed.
Lemma arr_nil : forall a g f, gap a -> c_arr (bs "[" ++ a ++ bs "]") g f (CArr []).
Proof.
  intros a g f Ha n a0 g1 g2 Hn -> (S1 & S2 & W & Sf) Sa. asc. destruct n as [|n]; [cbn in Hn; lia|].
  assert (Sc : solid (bs "]" ++ g1 ++ g2 ++ f)) by (cbn [app bs]; shd).
  destruct (@gap_split _ _ Ha Sc) as (b1 & b2 & -> & T1 & T2 & _).
  unfold array_cv. eapply a_map_eq with (v := []); [|reflexivity].
  replace (a0 ++ bs "[" ++ (b1 ++ b2) ++ bs "]" ++ g1) with ((a0 ++ bs "[" ++ b1) ++ [] ++ (b2 ++ bs "]" ++ g1)) by (now asc).
  eapply a_surround.
  - apply open_spaced; [|cbn [app]; asc; exact T1]. asc. exact Sa.
  - eapply a_repeat_sep_none, r_lazy. asc. apply r_value_close. exact T2.
  - apply open_spaced; [exact T2|exact S1].
Qed.
Lemma arr_some : forall a s g f vs, gap a -> helems s (bs "]" ++ g ++ f) vs -> c_elems s (bs "]" ++ g ++ f) vs -> c_arr (bs "[" ++ a ++ s ++ bs "]") g f (CArr vs).
Proof.
  intros a s g f vs Ha He H n a0 g1 g2 Hn -> (S1 & S2 & W & Sf) Sa. destruct n as [|n]; [cbn in Hn; lia|].
  pose proof (helems_hd He) as Se. destruct (@gap_split _ _ Ha Se) as (b1 & b2 & -> & T1 & T2 & _).
  destruct (H (S n) b2) as (v & vs' & s1 & t & d & z & -> & -> & A & C & Sz & Hd); [|cbn [app bs]; shd|discriminate|exact T2|].
  { len. }
  unfold array_cv. eapply a_map_eq with (v := v :: vs'); [|reflexivity].
  replace (a0 ++ (bs "[" ++ (b1 ++ b2) ++ (s1 ++ t ++ d ++ z) ++ bs "]") ++ g1) with ((a0 ++ bs "[" ++ b1) ++ ((b2 ++ s1) ++ t ++ d) ++ (z ++ bs "]" ++ g1)) by (now asc).
  eapply a_surround.
  - apply open_spaced; [asc; exact Sa|asc; exact T1].
  - unfold p_many0_sep. destruct Hd as [[-> ->]|Hd].
    + rewrite app_nil_r. eapply a_repeat_sep; [apply a_lazy; cbn [app] in *; asc; exact A| | |lia].
      * cbn [app] in *. asc. exact C.
      * cbn [app]. asc. apply (@r_comma []); [apply skips_nil; cbn [app bs]; shd|discriminate].
    + eapply a_repeat_sep_dangling; [apply a_lazy; asc; exact A|asc; exact C|asc; exact Hd| |lia].
      apply r_lazy. asc. apply r_value_close. exact Sz.
  - apply open_spaced; [asc; exact Sz|exact S1].
Qed.
Lemma obj_nil : forall a g f, gap a -> brace_ok (g ++ f) -> c_obj (bs "{" ++ a ++ bs "}") g f (CObj []).
Proof.
  intros a g f Ha Hb n a0 g1 g2 Hn -> (S1 & S2 & W & Sf) Sa. asc. destruct n as [|n]; [cbn in Hn; lia|].
  assert (Sc : solid (bs "}" ++ g1 ++ g2 ++ f)) by (cbn [app bs]; shd).
  destruct (@gap_split _ _ Ha Sc) as (b1 & b2 & -> & T1 & T2 & _).
  unfold object_cv. eapply a_map_eq with (v := []); [|reflexivity].
  replace (a0 ++ bs "{" ++ (b1 ++ b2) ++ bs "}" ++ g1) with ((a0 ++ bs "{" ++ b1) ++ [] ++ (b2 ++ bs "}" ++ g1)) by (now asc).
  eapply a_surround.
  - apply open_spaced; [|cbn [app]; asc; exact T1]. asc. exact Sa.
  - eapply a_repeat_sep_none, r_lazy. asc. change (property_fuel (S n)) with (property_step (value_fuel n) (property_fuel n)).
    apply r_prop_brace; [exact T2|]. now asc.
  - apply open_spaced; [exact T2|exact S1].
Qed.
Lemma obj_some : forall a s g f ps, gap a -> hmembers s (bs "}" ++ g ++ f) ps -> NoDup (map fst ps) -> brace_ok (g ++ f) ->
  c_members s (bs "}" ++ g ++ f) ps -> c_obj (bs "{" ++ a ++ s ++ bs "}") g f (CObj ps).
Proof.
  intros a s g f ps Ha He Nd Hb H n a0 g1 g2 Hn -> (S1 & S2 & W & Sf) Sa. destruct n as [|n]; [cbn in Hn; lia|].
  assert (Se : solid (s ++ bs "}" ++ (g1 ++ g2) ++ f)).
  { destruct (hmembers_hd He) as (x & t & -> & Hx). now apply member_hd_solid. }
  destruct (@gap_split _ _ Ha Se) as (b1 & b2 & -> & T1 & T2 & _).
  destruct (H (S n) b2) as (p & ps' & s1 & t & d & z & w & -> & -> & _ & A & C & Sz & Hd); [|cbn [app bs]; shd|discriminate|exact T2|].
  { len. }
  unfold object_cv. eapply a_map_eq with (v := p :: ps'); [|now rewrite obj_fold_new].
  replace (a0 ++ (bs "{" ++ (b1 ++ b2) ++ (s1 ++ t ++ d ++ z) ++ bs "}") ++ g1) with ((a0 ++ bs "{" ++ b1) ++ ((b2 ++ s1) ++ t ++ d) ++ (z ++ bs "}" ++ g1)) by (now asc).
  eapply a_surround.
  - apply open_spaced; [asc; exact Sa|asc; exact T1].
  - unfold p_many0_sep. eapply a_repeat_sep_dangling; [apply a_lazy; asc; exact A|asc; exact C|asc; exact Hd| |lia].
    apply r_lazy. asc. change (property_fuel (S n)) with (property_step (value_fuel n) (property_fuel n)).
    apply r_prop_brace; [exact Sz|exact Hb].
  - apply open_spaced; [asc; exact Sz|exact S1].
Qed.

Lemma gap_tail : forall g f, gap g -> solid f -> exists g1 g2, g = g1 ++ g2 /\ tail_ok g1 g2 f.
Proof. intros g f Hg Hf. destruct (@gap_split _ _ Hg Hf) as (g1 & g2 & E & S1 & S2 & W). exists g1, g2. now repeat split. Qed.
Lemma c_val_gap : forall s g f v, hval s g f v -> c_val s g f v -> gap g -> solid f -> forall n a, length s < n -> skips a (s ++ g ++ f) -> acc (value_fuel n) (a ++ s ++ g) f v.
Proof.
  intros s g f v Hv H Hg Hf n a Hn Ha. destruct (@gap_tail _ _ Hg Hf) as (g1 & g2 & E & T).
  apply (H n a [] g1 g2 Hn E T); [exact Ha|]. apply skips_nil. exact (hval_hd Hv).
Qed.
Lemma el_one : forall s b f v, gap b -> hval s b f v -> c_val s b f v -> c_elems (s ++ b) f [v].
Proof.
  intros s b f v Hb Hv H n a Hn Hf Hc Ha. exists v, [], (s ++ b), [], [], []. rewrite !app_length in Hn. asc.
  split; [reflexivity|]. split; [cbn [app]; now rewrite app_nil_r|]. split; [|split; [constructor|split; [now apply skips_nil|now left]]].
  cbn [app]. apply (c_val_gap Hv H Hb Hf); [lia|exact Ha].
Qed.
Lemma el_trail : forall s b a f v, gap b -> gap a -> hval s b (bs "," ++ a ++ f) v -> c_val s b (bs "," ++ a ++ f) v -> c_elems (s ++ b ++ bs "," ++ a) f [v].
Proof.
  intros s b a f v Hb Ha Hv H n a0 Hn Hf Hc Sa. rewrite !app_length in Hn. destruct (@gap_split _ _ Ha Hf) as (a1 & a2 & -> & S1 & S2 & _).
  exists v, [], (s ++ b), [], (bs "," ++ a1), a2. asc.
  split; [reflexivity|]. split; [reflexivity|]. split; [|split; [constructor|split; [exact S2|right]]].
  - cbn [app]. asc. apply (c_val_gap Hv H Hb); [cbn [app bs]; shd|lia|exact Sa].
  - apply (@a_comma [] a1); [apply skips_nil; shd|exact S1].
Qed.
Lemma el_more : forall s b a t f v vs, gap b -> gap a -> hval s b (bs "," ++ a ++ t ++ f) v -> c_val s b (bs "," ++ a ++ t ++ f) v ->
  helems t f vs -> c_elems t f vs -> c_elems (s ++ b ++ bs "," ++ a ++ t) f (v :: vs).
Proof.
  intros s b a t f v vs Hb Ha Hv H He IH n a0 Hn Hf Hc Sa. rewrite !app_length in Hn.
  destruct (@gap_split _ _ Ha (helems_hd He)) as (a1 & a2 & -> & S1 & S2 & _).
  destruct (IH n a2 ltac:(lia) Hf Hc S2) as (v2 & vs' & s1 & t1 & d & z & -> & -> & A & C & Sz & Hd).
  exists v, (v2 :: vs'), (s ++ b), ((bs "," ++ a1) ++ (a2 ++ s1) ++ t1), d, z. split; [reflexivity|]. split; [now asc|]. split; [|split; [|split; [exact Sz|exact Hd]]].
  - asc. apply (c_val_gap Hv H Hb); [cbn [app bs]; shd|lia|now asc].
  - econstructor; [|exact A|discriminate|exact C]. apply (@a_comma [] a1); [apply skips_nil; shd|]. asc. exact S1.
Qed.
Lemma member_run : forall m g f k v, c_member m g f k v -> gap g -> solid f -> forall n a, length m < n -> skips a (m ++ g ++ f) ->
  exists h1 h2, g = h1 ++ h2 /\ skips h2 f /\ acc (property_fuel n) (a ++ m ++ h1) (h2 ++ f) (k, v).
Proof.
  intros m g f k v H Hg Hf n a Hn Ha. destruct (@gap_tail _ _ Hg Hf) as (g1 & g2 & E & T). destruct (H n a g1 g2 Hn E T Ha) as [A|A].
  - exists g1, g2. destruct T as (_ & T & _). now repeat split.
  - exists g, []. rewrite app_nil_r. split; [reflexivity|]. split; [now apply skips_nil|exact A].
Qed.
Lemma opt_comma_none : forall z l, skips z l -> match l with [] => True | x :: _ => x <> 44%N end -> acc (p_opt comma) [] (z ++ l) None.
Proof. intros z l H1 H2. eapply a_opt_none. now apply r_comma. Qed.
Lemma app_ne : forall (m l : list N), m <> [] -> m ++ l <> [].
Proof. intros [|x m] l H; [congruence|discriminate]. Qed.
Lemma app_ne2 : forall (a m : list N), m <> [] -> a ++ m <> [].
Proof. intros [|x a] m H; [exact H|discriminate]. Qed.
Lemma mb_one : forall m g f k v, gap g -> hmember m g f k v -> c_member m g f k v -> c_members (m ++ g) f [(k, v)].
Proof.
  intros m g f k v Hg Hm H n a Hn Hf Hc Ha. destruct (member_run H Hg Hf (n := n) (a := a)) as (h1 & h2 & -> & S2 & A); [len|now asc|].
  exists (k, v), [], (m ++ h1), [], [], h2, None. split; [reflexivity|]. split; [now asc|].
  split; [destruct (hmember_hd Hm) as (x & t & -> & _); discriminate|]. split; [exact A|]. split; [constructor|]. split; [exact S2|]. now apply opt_comma_none.
Qed.
Lemma mb_trail : forall m g a f k v, gap g -> gap a -> hmember m g (bs "," ++ a ++ f) k v -> c_member m g (bs "," ++ a ++ f) k v ->
  c_members (m ++ g ++ bs "," ++ a) f [(k, v)].
Proof.
  intros m g a f k v Hg Ha Hm H n a0 Hn Hf Hc Sa.
  destruct (member_run H Hg ltac:(cbn [app bs]; shd) (n := n) (a := a0)) as (h1 & h2 & -> & S2 & A); [len|now asc|].
  destruct (@gap_split _ _ Ha Hf) as (a1 & a2 & -> & T1 & T2 & _).
  exists (k, v), [], (m ++ h1), [], (h2 ++ bs "," ++ a1), a2, (Some (chr ",")). split; [reflexivity|]. split; [now asc|].
  split; [destruct (hmember_hd Hm) as (x & t & -> & _); discriminate|]. split; [asc; exact A|]. split; [constructor|]. split; [exact T2|].
  apply a_opt. apply a_comma; [|exact T1]. asc. exact S2.
Qed.
Lemma mb_comma : forall m g a t f k v ps, gap g -> gap a -> hmember m g (bs "," ++ a ++ t ++ f) k v -> c_member m g (bs "," ++ a ++ t ++ f) k v ->
  hmembers t f ps -> c_members t f ps -> c_members (m ++ g ++ bs "," ++ a ++ t) f ((k, v) :: ps).
Proof.
  intros m g a t f k v ps Hg Ha Hm H Ht IH n a0 Hn Hf Hc Sa.
  destruct (member_run H Hg ltac:(cbn [app bs]; shd) (n := n) (a := a0)) as (h1 & h2 & -> & S2 & A); [len|now asc|].
  assert (St : solid (t ++ f)) by (destruct (hmembers_hd Ht) as (x & t' & -> & Hx); now apply member_hd_solid).
  destruct (@gap_split _ _ Ha St) as (a1 & a2 & -> & T1 & T2 & _).
  destruct (IH n a2 ltac:(len) Hf Hc T2) as (p & ps' & s1 & t1 & d & z & w & -> & -> & N1 & A1 & C1 & Sz & Hd).
  exists (k, v), (p :: ps'), (m ++ h1), ((h2 ++ bs "," ++ a1) ++ (a2 ++ s1) ++ t1), d, z, w. split; [reflexivity|]. split; [now asc|].
  split; [destruct (hmember_hd Hm) as (x & t & -> & _); discriminate|]. split; [asc; exact A|]. split; [|split; [exact Sz|exact Hd]].
  econstructor; [apply a_opt, a_comma|exact A1| |exact C1].
  - asc. exact S2.
  - asc. exact T1.
  - apply app_ne2, app_ne2, N1.
Qed.
Lemma mb_line : forall m g t f k v ps, gap g -> hmember m g (t ++ f) k v -> c_member m g (t ++ f) k v ->
  hmembers t f ps -> c_members t f ps -> c_members (m ++ g ++ t) f ((k, v) :: ps).
Proof.
  intros m g t f k v ps Hg Hm H Ht IH n a0 Hn Hf Hc Sa. destruct (hmembers_hd Ht) as (x & t' & Et & Hx).
  assert (St : solid (t ++ f)) by (rewrite Et; now apply member_hd_solid).
  destruct (member_run H Hg St (n := n) (a := a0)) as (h1 & h2 & -> & S2 & A); [len|now asc|].
  assert (Oc : acc (p_opt comma) [] (h2 ++ t ++ f) None) by (apply opt_comma_none; [exact S2|]; rewrite Et; now apply member_hd_comma).
  destruct (IH n h2 ltac:(len) Hf Hc S2) as (p & ps' & s1 & t1 & d & z & w & -> & Es & N1 & A1 & C1 & Sz & Hd). rewrite Es in *.
  exists (k, v), (p :: ps'), (m ++ h1), ([] ++ (h2 ++ s1) ++ t1), d, z, w. split; [reflexivity|]. split; [cbn [app]; now asc|].
  split; [destruct (hmember_hd Hm) as (y & u & -> & _); discriminate|]. split; [cbn [app]; asc; exact A|]. split; [|split; [exact Sz|exact Hd]].
  econstructor; [|exact A1| |exact C1].
  - asc. exact Oc.
  - apply app_ne2, app_ne2, N1.
Qed.
Lemma key_ne : forall k s, g_key k s -> 0 < length s.
Proof. intros k s H. destruct (key_hd H) as (x & t & -> & _). cbn. lia. Qed.
Lemma kv_ok : forall k kt a c b s g f v, g_key k kt -> block a -> c = bs "=" \/ c = bs ":" -> gap b -> solid (s ++ g ++ f) -> c_val s g f v ->
  c_member (kt ++ a ++ c ++ b ++ s) g f k v.
Proof.
  intros k kt a c b s g f v Hk Ha Hc Hb Hv H n a0 g1 g2 Hn -> T Sa. right. destruct n as [|n]; [lia|].
  assert (Sb : solid (s ++ (g1 ++ g2) ++ f)) by exact Hv.
  destruct (@gap_split _ _ Hb Sb) as (b1 & b2 & -> & T1 & T2 & _).
  assert (Sc : forall l, solid (c ++ l)) by (intros l; destruct Hc as [->| ->]; cbn [app bs]; shd).
  assert (Pc : forall l, path_stop (c ++ l)) by (intros l; destruct Hc as [->| ->]; (apply path_stop_hd; [unfold letter; cbn; lia|lits])).
  pose proof (key_ne Hk) as L.
  change (property_fuel (S n)) with (property_step (value_fuel n) (property_fuel n)). unfold property_step.
  replace (a0 ++ (kt ++ a ++ c ++ (b1 ++ b2) ++ s) ++ g1 ++ g2) with ((a0 ++ kt ++ a) ++ c ++ (b1 ++ b2 ++ s ++ g1 ++ g2)) by (now asc).
  eapply a_and.
  - apply a_key; [exact Hk|asc; exact Sa|apply block_skips; [exact Ha|asc; apply Sc]|apply block_path_stop; [exact Ha|asc; apply Pc]|apply skips_nil; asc; apply Sc].
  - apply a_or1, a_or1, a_attempt. eapply a_skip_left.
    + unfold kv. eapply a_discard. instantiate (1 := hd 0%N c). destruct Hc as [->| ->]; apply a_elm_ref_of; reflexivity.
    + apply a_lazy. apply (H n b1 b2 g1 g2); [len|reflexivity|exact T|asc; exact T1|asc; exact T2].
Qed.
Lemma ka_ok : forall k kt a s g f v, g_key k kt -> gap a -> harr s g f v -> c_arr s g f v -> c_member (kt ++ a ++ s) g f k v.
Proof.
  intros k kt a s g f v Hk Ha Hv H n a0 g1 g2 Hn -> T Sa. left. destruct n as [|n]; [lia|]. pose proof (key_ne Hk) as L.
  destruct (harr_open Hv) as [t Et].
  assert (Ss : solid (s ++ (g1 ++ g2) ++ f)) by (rewrite Et; cbn [app]; shd).
  destruct (@a_key2 k kt a0 a (s ++ (g1 ++ g2) ++ f) Hk) as (b1 & b2 & -> & A & S2 & W2); [now asc|exact Ha|exact Ss| |].
  { rewrite Et. apply path_stop_hd; [unfold letter; cbn; lia|lits]. }
  change (property_fuel (S n)) with (property_step (value_fuel n) (property_fuel n)). unfold property_step.
  replace (a0 ++ (kt ++ (b1 ++ b2) ++ s) ++ g1) with ((a0 ++ kt ++ b1) ++ (b2 ++ s ++ g1)) by (now asc).
  eapply a_and; [asc; exact A|]. apply a_or2.
  - asc. apply r_or; eapply r_attempt.
    + apply r_skip_left1, r_discard, r_elm_ref_of. rewrite Et. destruct b2 as [|x b2]; [reflexivity|]. inv W2. cbn -[set_contains]. apply set_not_in. cbn in *. intros Hc. lia.
    + apply r_object; [exact S2|]. rewrite Et. discriminate.
  - apply (H n b2 g1 g2); [len|reflexivity|exact T|exact S2].
Qed.
Lemma ko_ok : forall k kt a s g f v, g_key k kt -> gap a -> hobj s g f v -> c_obj s g f v -> c_member (kt ++ a ++ s) g f k v.
Proof.
  intros k kt a s g f v Hk Ha Hv H n a0 g1 g2 Hn -> T Sa. left. destruct n as [|n]; [lia|]. pose proof (key_ne Hk) as L.
  destruct (hobj_open Hv) as [t Et].
  assert (Ss : solid (s ++ (g1 ++ g2) ++ f)) by (rewrite Et; cbn [app]; shd).
  destruct (@a_key2 k kt a0 a (s ++ (g1 ++ g2) ++ f) Hk) as (b1 & b2 & -> & A & S2 & W2); [now asc|exact Ha|exact Ss| |].
  { rewrite Et. apply path_stop_hd; [unfold letter; cbn; lia|lits]. }
  change (property_fuel (S n)) with (property_step (value_fuel n) (property_fuel n)). unfold property_step.
  replace (a0 ++ (kt ++ (b1 ++ b2) ++ s) ++ g1) with ((a0 ++ kt ++ b1) ++ (b2 ++ s ++ g1)) by (now asc).
  eapply a_and; [asc; exact A|]. apply a_or1, a_or2.
  - asc. eapply r_attempt, r_skip_left1, r_discard, r_elm_ref_of. rewrite Et. destruct b2 as [|x b2]; [reflexivity|].
    inv W2. cbn -[set_contains]. apply set_not_in. cbn in *. intros Hc. lia.
  - apply a_attempt. apply (H n b2 g1 g2); [len|reflexivity|exact T|exact S2].
Qed.

Lemma not_digit_hd : forall x, digit x -> x <> 91%N /\ x <> 123%N /\ x <> 36%N.
Proof. intros x H. unfold digit in H. lia. Qed.
Theorem complete : (forall s g f v, hval s g f v -> c_val s g f v) /\ (forall s g f v, harr s g f v -> c_arr s g f v) /\
  (forall s g f v, hobj s g f v -> c_obj s g f v) /\ (forall s f vs, helems s f vs -> c_elems s f vs) /\
  (forall s f ps, hmembers s f ps -> c_members s f ps) /\ (forall m g f k v, hmember m g f k v -> c_member m g f k v).
Proof.
  assert (Word : forall w v g f, In (w, v) [(bs "null", CNull); (bs "true", CBool true); (bs "false", CBool false)] -> c_val w g f v).
  { intros w v g f Hin. apply val_simple.
    - cbn [In] in Hin. destruct Hin as [E|[E|[E|[]]]]; inversion E; subst w; cbn; do 2 eexists; (split; [reflexivity|]); repeat split; discriminate.
    - intros a g1 g2 -> T Ha. left. now apply head_word. }
  apply hocon_ind6.
  - intros g f. apply Word. cbn. tauto.
  - intros g f. apply Word. cbn. tauto.
  - intros g f. apply Word. cbn. tauto.
  - intros s g f d Hs Hd Hn Hu. apply val_simple.
    + destruct (g_unsigned_hd Hs) as (x & t & -> & Hx). exists x, t. split; [reflexivity|now apply not_digit_hd].
    + intros a g1 g2 -> T Ha. right. apply head_num; try assumption. rewrite <- app_assoc in Hn. exact Hn.
  - intros s w t g f d u Hs Hd Hw Ht Hn. apply val_simple.
    + destruct (g_unsigned_hd Hs) as (x & t' & -> & Hx). exists x, (t' ++ w ++ t). split; [reflexivity|now apply not_digit_hd].
    + intros a g1 g2 -> T Ha. left. apply head_dur; try assumption. rewrite <- app_assoc in Hn. exact Hn.
  - intros v s g f Hs. apply val_simple.
    + destruct (g_quoted_hd Hs) as (t & ->). exists 34%N, t. repeat split; discriminate.
    + intros a g1 g2 -> T Ha. right. now apply head_quoted.
  - intros s g f Hs Hr. apply val_simple.
    + destruct (bare_hd Hs) as (x & t & -> & Hx & _). exists x, t. split; [reflexivity|]. cbn in Hx. intuition congruence.
    + intros a g1 g2 -> T Ha. left. apply head_bare; try assumption. rewrite <- app_assoc in Hr. exact Hr.
  - intros o w1 p w2 g f H1 Hp H2. apply val_head. intros n a g1 g2 _ -> T Ha. left. now apply head_ref.
  - intros s g f v Hv H. now apply val_arr.
  - intros s g f v Hv H. now apply val_obj.
  - intros a g f Ha. now apply arr_nil.
  - intros a s g f vs Ha He H. now apply arr_some.
  - intros a g f Ha Hb. now apply obj_nil.
  - intros a s g f ps Ha Hm H Nd Hb. now apply obj_some.
  - intros s b f v Hb Hv H. now apply el_one.
  - intros s b a f v Hb Ha Hv H. now apply el_trail.
  - intros s b a t f v vs Hb Ha Hv H He IH. now apply el_more.
  - intros m g f k v Hg Hm H. now apply mb_one.
  - intros m g a f k v Hg Ha Hm H. now apply mb_trail.
  - intros m g a t f k v ps Hg Ha Hm H Ht IH. now apply mb_comma.
  - intros m g t f k v ps Hg _ Hm H Ht IH. now apply mb_line.
  - intros k kt a c b s g f v Hk Ha Hc Hb Hv H. apply kv_ok; try assumption. exact (hval_hd Hv).
  - intros k kt a s g f v Hk Ha Hv H. now apply ka_ok.
  - intros k kt a s g f v Hk Ha Hv H. now apply ko_ok.
Qed.

(** ** Documents *)
Lemma r_prop_end : forall value prop, rej (property_step value prop) [] false.
Proof.
  intros value prop. unfold property_step. apply r_and1. unfold key_p. apply r_spaced0; [exact I|]. apply r_or.
  - eapply r_attempt, r_path_text. exact I.
  - now apply r_hstring_end.
Qed.
Lemma block_gap : forall b, block b -> gap b.
Proof. intros b H. exists b, []. rewrite app_nil_r. repeat split; [exact H|constructor]. Qed.
Lemma block_tail : forall b, block b -> tail_ok b [] [].
Proof. intros b H. repeat split; [now apply block_skips|now apply skips_nil|constructor]. Qed.
Lemma hroot_hd : forall t ps, hroot t ps -> solid t.
Proof.
  intros t ps H. destruct H as [m g k v Hg Hm|m g t k v ps Hg Hn Hm Ht]; exact (hmember_solid _ Hm).
Qed.
Lemma root_chain : forall t ps, hroot t ps -> forall n a, length t <= n -> skips a t ->
  chain (property_step (value_fuel n) (property_fuel n)) (a ++ t) [] ps /\ ps <> [].
Proof.
  destruct complete as (_ & _ & _ & _ & _ & Cm). intros t ps H.
  induction H as [m g k v Hg Hm|m g t k v ps Hg Hnl Hm Ht IH]; intros n a Hn Ha; (split; [|discriminate]).
  - assert (A : acc (property_fuel (S n)) (a ++ m ++ g) [] (k, v)).
    { destruct (Cm _ _ _ _ _ Hm (S n) a g []) as [A|A]; [len|now rewrite app_nil_r|now apply block_tail|rewrite app_nil_r; exact Ha|exact A|exact A]. }
    change (property_fuel (S n)) with (property_step (value_fuel n) (property_fuel n)) in A.
    rewrite <- (app_nil_r (a ++ m ++ g)). constructor; [exact A| |constructor]. apply app_ne2. destruct (hmember_hd Hm) as (x & t & -> & _). discriminate.
  - destruct (member_run (Cm _ _ _ _ _ Hm) Hg (hroot_hd Ht) (n := S n) (a := a)) as (h1 & h2 & -> & S2 & A); [len|exact Ha|].
    change (property_fuel (S n)) with (property_step (value_fuel n) (property_fuel n)) in A.
    replace (a ++ m ++ (h1 ++ h2) ++ t) with ((a ++ m ++ h1) ++ h2 ++ t) by (now asc). constructor.
    + rewrite app_nil_r. exact A.
    + apply app_ne2. destruct (hmember_hd Hm) as (x & t' & -> & _). discriminate.
    + apply IH; [len|exact S2].
Qed.
Lemma r_includes : forall a x l, ws a -> x <> 105%N -> rej (p_attempt (p_many1 (include_cv D))) (a ++ x :: l) false.
Proof.
  intros a x l Ha Hx. eapply r_attempt, r_many1, r_map, r_and1, r_skip_left1, r_skip_left1, r_seqN. destruct a as [|y a]; [exact Hx|].
  inv Ha. cbn in *. lia.
Qed.
Lemma doc_run : forall n a1 a2 s v, acc (config_step (value_fuel n) (property_fuel n)) (a2 ++ s) [] [v] -> skips a1 (a2 ++ s) ->
  hocon_fuel dec n (a1 ++ a2 ++ s) 0 = Success [v] (length (a1 ++ a2 ++ s)).
Proof.
  intros n a1 a2 s v A Ha. unfold hocon_fuel.
  assert (B : acc (p_skip_right (p_skip_left space_or_comment (config_step (value_fuel n) (property_fuel n))) p_end) ((a1 ++ a2 ++ s) ++ []) [] [v]).
  { eapply a_skip_right; [|apply a_end]. eapply a_skip_left; [|cbn [app]; exact A]. rewrite app_nil_r. exact Ha. }
  specialize (B []). cbn [app List.length] in B. rewrite !app_nil_r in B. exact B.
Qed.
Theorem doc_complete : forall s v, hdoc s v -> hocon_p dec s 0 = Success [v] (length s).
Proof.
  intros s v H. unfold hocon_p. destruct complete as (_ & Ca & Co & _).
  destruct H as [a t ps Ha Ht Nd|a s g v Ha Hg Hs|a s g v Ha Hg Hs Hb].
  - destruct (@gap_split _ _ Ha (hroot_hd Ht)) as (a1 & a2 & -> & S1 & S2 & W). rewrite <- app_assoc in *. apply doc_run; [|exact S1].
    destruct (root_chain Ht (n := S (length (a1 ++ a2 ++ t))) (a := a2)) as [C Ne]; [len|exact S2|].
    unfold config_step. apply a_or1, a_or1, a_attempt. eapply a_map_eq with (v := ps); [|now rewrite top_fold_new].
    eapply a_many1; [exact C|apply r_prop_end|exact Ne].
  - destruct (harr_open Hs) as [t Et].
    assert (Ss : solid (s ++ g)) by (rewrite Et; cbn [app]; shd).
    destruct (@gap_split _ _ Ha Ss) as (a1 & a2 & -> & S1 & S2 & W). rewrite <- app_assoc in *. apply doc_run; [|exact S1].
    set (n := S (length (a1 ++ a2 ++ s ++ g))).
    assert (A : acc (array_cv (value_fuel n)) (a2 ++ s ++ g) [] v).
    { apply (Ca _ _ _ _ Hs n a2 g []); [unfold n; len|now rewrite app_nil_r|now apply block_tail|now rewrite app_nil_r]. }
    unfold config_step. apply a_or2.
    + rewrite app_nil_r. subst s. cbn [app] in *. apply r_or; [|now apply r_includes].
      eapply r_attempt, r_map, r_many1. unfold property_step. apply r_and1. unfold key_p. apply r_spaced; [exact S2|]. apply r_or.
      * eapply r_attempt, r_path_text. unfold path_letter, letter. cbn. lia.
      * apply r_hstring_end; [exact Ss|split; [cbn; tauto|discriminate]|split; discriminate].
    + rewrite <- (app_nil_r (a2 ++ s ++ g)). eapply a_many0.
      * constructor; [|apply app_ne2; subst s; discriminate|constructor]. apply a_or2; [|exact A].
        cbn [app]. rewrite app_nil_r. eapply r_attempt. apply r_object; [exact S2|]. subst s. discriminate.
      * apply r_or; [eapply r_attempt; apply (@r_object _ [] []); [now apply skips_nil|exact I]|apply (@r_array _ [] []); [now apply skips_nil|exact I]].
  - destruct (hobj_open Hs) as [t Et].
    assert (Ss : solid (s ++ g)) by (rewrite Et; cbn [app]; shd).
    destruct (@gap_split _ _ Ha Ss) as (a1 & a2 & -> & S1 & S2 & W). rewrite <- app_assoc in *. apply doc_run; [|exact S1].
    set (n := S (length (a1 ++ a2 ++ s ++ g))).
    assert (A : acc (object_cv (property_fuel n)) (a2 ++ s ++ g) [] v).
    { apply (Co _ _ _ _ Hs n a2 g []); [unfold n; len|now rewrite app_nil_r|now apply block_tail|now rewrite app_nil_r]. }
    unfold config_step. apply a_or2.
    + rewrite app_nil_r. subst s. cbn [app] in *. apply r_or; [|now apply r_includes].
      eapply r_attempt, r_map, r_many1. apply r_prop_run; [unfold stop_char; lits|unfold path_letter, letter; cbn; lia|exact Ss|exact Hb|exact S2].
    + rewrite <- (app_nil_r (a2 ++ s ++ g)). eapply a_many0.
      * constructor; [|apply app_ne2; subst s; discriminate|constructor]. apply a_or1, a_attempt. exact A.
      * apply r_or; [eapply r_attempt; apply (@r_object _ [] []); [now apply skips_nil|exact I]|apply (@r_array _ [] []); [now apply skips_nil|exact I]].
Qed.
End Values.
