(** The example JSON parsers accept exactly the lenient grammar of JsonSpec.v, with the value the text spells. *)
From Verif Require Import Base Core Comb Closure RepFacts LitFacts Hoare Runs Text Agree Json JsonSpec.
Set Implicit Arguments.
Local Open Scope string_scope.
Local Open Scope nat_scope.
Local Open Scope list_scope.

(** ** White space *)
Definition is_ws (x : N) : Prop := In x [32; 9; 13; 10]%N.
Definition no_ws (l : list N) : Prop := match l with [] => True | x :: _ => ~ is_ws x end.
Lemma h_space : hoare space (fun _ s => ws s).
Proof.
  unfold space. eapply h_discard with (Q := fun _ s => ws s); [|auto].
  eapply h_many0 with (Q := fun x s => s = [x] /\ is_ws x).
  - apply h_elm_of. intros x Hx. now split.
  - intros v s [-> _]. discriminate.
  - intros vs s H. unfold ws. induction H as [|v s vs t [-> Hv] _ IH]; [constructor|]. constructor; [exact Hv|exact IH].
Qed.
Lemma a_space : forall s rest, ws s -> no_ws rest -> acc space s rest tt.
Proof.
  intros s rest H Hr. unfold space. eapply a_discard. eapply a_many0.
  - apply chain_class with (f := set_contains [32; 9; 13; 10]%N).
    + intros x r Hx. apply a_elm_of. now apply set_contains_in.
    + eapply Forall_impl; [|exact H]. intros x Hx. now apply set_contains_in.
  - apply r_elm_of. destruct rest; exact Hr.
Qed.
Lemma ws_app : forall a b, ws a -> ws b -> ws (a ++ b).
Proof. intros a b Ha Hb. apply Forall_app. now split. Qed.

(** ** Numbers *)
Ltac pw := repeat match goal with
  | H : andb _ _ = true |- _ => apply andb_true_iff in H; destruct H
  | H : N.leb _ _ = true |- _ => apply N.leb_le in H
  end.
Lemma dig_iff : forall x, is_ascii_digit x = true <-> digit x.
Proof. intros x. unfold is_ascii_digit, in_range, digit. rewrite andb_true_iff, !N.leb_le. reflexivity. Qed.
Lemma h_digits0 : hoare (p_many0 p_elm_digit_ref) (fun _ s => Forall digit s).
Proof.
  eapply h_many0 with (Q := fun x s => s = [x] /\ digit x).
  - apply h_elm_pred_ref. intros x Hx. split; [reflexivity|now apply dig_iff].
  - intros v s [-> _]. discriminate.
  - intros vs s H. induction H as [|v s vs t [-> Hv] _ IH]; [constructor|]. constructor; [exact Hv|exact IH].
Qed.
Lemma h_digits1 : hoare (p_many1 p_elm_digit_ref) (fun _ s => digits1 s).
Proof.
  eapply h_many1 with (Q := fun x s => s = [x] /\ digit x).
  - apply h_elm_pred_ref. intros x Hx. split; [reflexivity|now apply dig_iff].
  - intros v s [-> _]. discriminate.
  - intros vs s H Hne. split.
    + clear Hne. induction H as [|v s vs t [-> Hv] _ IH]; [constructor|]. constructor; [exact Hv|exact IH].
    + destruct H as [|v s vs t [-> _] _]; [congruence|discriminate].
Qed.
Lemma h_integer : hoare integer (fun _ s => g_int s).
Proof.
  unfold integer. apply h_or.
  - eapply h_skip_right with (P := fun x s => s = [x] /\ (49 <= x <= 57)%N); [|apply h_digits0|].
    + unfold p_elm_digit_1_9_ref, p_filter_not. eapply h_filter with (Q := fun x s => s = [x] /\ digit x).
      * apply h_elm_pred_ref. intros x Hx. split; [reflexivity|now apply dig_iff].
      * intros x s [-> Hx] Hz. split; [reflexivity|]. apply negb_true_iff, N.eqb_neq in Hz. unfold digit in Hx. lia.
    + intros x _ s t [-> Hx] Ht. right. now exists x, t.
  - apply h_elm_ref. now left.
Qed.
Lemma h_opt_any : forall A (p : parser N A) (P : list N -> Prop), hoare p (fun _ s => P s) -> hoare (p_opt p) (fun _ s => maybe P s).
Proof. intros A p P H. eapply h_opt; [exact H|intros v s K; now right|now left]. Qed.
Lemma h_frac : hoare frac (fun _ s => g_frac s).
Proof.
  unfold frac. eapply h_and with (P := fun _ s => s = bs "."); [apply h_elm_ref; reflexivity|apply h_digits1|].
  intros a b s t -> Ht. now exists t.
Qed.
Lemma h_expo : hoare expo (fun _ s => g_exp s).
Proof.
  unfold expo. eapply h_and with (P := fun _ s => exists e sg, s = e ++ sg /\ (e = bs "e" \/ e = bs "E") /\ maybe (fun u => u = bs "+" \/ u = bs "-") sg);
    [|apply h_digits1|].
  - eapply h_and with (P := fun _ s => s = bs "e" \/ s = bs "E").
    + apply h_elm_of. cbn. intros x [<-|[<-|[]]]; auto.
    + apply h_opt_any with (P := fun u => u = bs "+" \/ u = bs "-"). apply h_elm_of. cbn. intros x [<-|[<-|[]]]; auto.
    + cbv beta. intros _ _ s t Hs Ht. now exists s, t.
  - cbv beta. intros _ _ s t (e & sg & -> & He & Hs) Ht. exists e, sg, t. now rewrite <- app_assoc.
Qed.
Lemma h_number : forall F (f64_parse : list N -> F + unit), hoare (number f64_parse) (fun x s => g_number s /\ f64_parse s = inl x).
Proof.
  intros F f64_parse. unfold number. eapply h_map_res with (Q := fun v s => v = s /\ g_number s); [|intros v s b [-> H] E; now split].
  eapply h_collect with (Q := fun _ s => g_number s); [|auto].
  eapply h_and with (P := fun _ s => exists m i f, s = m ++ i ++ f /\ maybe (eq (bs "-")) m /\ g_int i /\ maybe g_frac f);
    [|apply h_opt_any, h_expo|].
  - eapply h_and with (P := fun _ s => exists m i, s = m ++ i /\ maybe (eq (bs "-")) m /\ g_int i); [|apply h_opt_any, h_frac|].
    + eapply h_and; [apply h_opt_any with (P := eq (bs "-")); apply h_elm_ref; reflexivity|apply h_integer|].
      cbv beta. intros _ _ s t Hs Ht. now exists s, t.
    + cbv beta. intros _ _ s t (m & i & -> & Hm & Hi) Ht. exists m, i, t. now rewrite <- app_assoc.
  - cbv beta. intros _ _ s t (m & i & f & -> & Hm & Hi & Hf) Ht. exists m, i, f, t. now rewrite <- !app_assoc.
Qed.
(** What may follow a value. *)
Definition after (l : list N) : Prop := match l with [] => True | x :: _ => In x ([32; 9; 13; 10]%N ++ bs ",]}") end.
Lemma after_not : forall l (x : N), after l -> ~ In x ([32; 9; 13; 10]%N ++ bs ",]}") -> match l with [] => True | y :: _ => y <> x end.
Proof. intros [|y l] x H Hn; [exact I|]. intros ->. now apply Hn. Qed.
Lemma after_hd : forall l f, after l -> forallb (fun x => negb (f x)) ([32; 9; 13; 10]%N ++ bs ",]}") = true -> hd_not f l.
Proof.
  intros [|y l] f H Hf; [exact I|]. cbn [hd_not]. rewrite forallb_forall in Hf. specialize (Hf y H). now apply negb_true_iff.
Qed.
Lemma after_notin : forall l s, after l -> (forall x, In x s -> ~ In x ([32; 9; 13; 10]%N ++ bs ",]}")) ->
  match l with [] => True | y :: _ => ~ In y s end.
Proof. intros [|y l] s H Hs; [exact I|]. intros K. now apply (Hs y K). Qed.
Ltac lits := cbn; unfold not; intros; repeat match goal with H : _ \/ _ |- _ => destruct H end; subst; try discriminate; try contradiction.
Lemma a_digits : forall s rest, Forall digit s -> hd_not is_ascii_digit rest -> acc (p_many0 p_elm_digit_ref) s rest s.
Proof.
  intros s rest H Hr. eapply a_many0.
  - apply chain_class with (f := is_ascii_digit); [intros x r Hx; now apply a_elm_pred_ref|].
    eapply Forall_impl; [|exact H]. intros x. apply dig_iff.
  - now apply r_elm_pred_ref.
Qed.
Lemma a_digits1 : forall s rest, digits1 s -> hd_not is_ascii_digit rest -> acc (p_many1 p_elm_digit_ref) s rest s.
Proof.
  intros s rest [H Hne] Hr. eapply a_many1.
  - apply chain_class with (f := is_ascii_digit); [intros x r Hx; now apply a_elm_pred_ref|].
    eapply Forall_impl; [|exact H]. intros x. apply dig_iff.
  - now apply r_elm_pred_ref.
  - exact Hne.
Qed.
Lemma g_int_digits : forall i, g_int i -> exists x t, i = x :: t /\ digit x.
Proof. intros i [->|(x & t & -> & Hx & _)]; [exists 48%N, []|exists x, t]; (split; [reflexivity|unfold digit; lia]). Qed.
Lemma a_integer : forall i rest, g_int i -> hd_not is_ascii_digit rest -> exists v, acc integer i rest v.
Proof.
  intros i rest [->|(x & t & -> & Hx & Ht)] Hr; unfold integer.
  - eexists. apply a_or2; [|apply a_elm_ref]. eapply r_skip_right1. unfold p_elm_digit_1_9_ref, p_filter_not.
    change (bs "0" ++ rest) with ([48%N] ++ rest). eapply r_filter_false; [apply a_elm_pred_ref; reflexivity|reflexivity].
  - eexists. apply a_or1. change (x :: t) with ([x] ++ t). eapply a_skip_right; [|apply a_digits; eassumption].
    unfold p_elm_digit_1_9_ref, p_filter_not. apply a_filter.
    + apply a_elm_pred_ref. apply dig_iff. unfold digit. lia.
    + unfold is_ascii_digit_zero. destruct (N.eqb_spec x 48); [lia|reflexivity].
Qed.
Lemma a_opt_any : forall A (p : parser N A) P s rest c, maybe P s -> (P s -> exists v, acc p s rest v) -> (s = [] -> rej p rest c) -> exists v, acc (p_opt p) s rest v.
Proof.
  intros A p P s rest c [->|H] Ha Hr.
  - exists None. eapply a_opt_none. now apply Hr.
  - destruct (Ha H) as [v Hv]. exists (Some v). now apply a_opt.
Qed.
Lemma a_number : forall F (f64_parse : list N -> F + unit) s rest x, g_number s -> f64_parse s = inl x -> after rest -> acc (number f64_parse) s rest x.
Proof.
  intros F f64_parse s rest x (m & i & f & e & -> & Hm & Hi & Hf & He) Hx Hr. unfold number.
  eapply a_map_res; [|exact Hx]. clear Hx x.
  assert (He' : exists v, acc (p_opt expo) e rest v).
  { eapply a_opt_any with (c := false); [exact He| |].
    - intros (e' & sg & t & -> & E1 & E2 & E3). unfold expo. rewrite app_assoc.
      assert (Ds : hd_not is_ascii_digit rest) by (apply after_hd; [exact Hr|reflexivity]).
      assert (V : exists v, acc (p_opt (p_elm_of (bs "+-"))) sg (t ++ rest) v).
      { eapply a_opt_any with (c := false); [exact E2| |].
        - intros [->| ->]; eexists; apply a_elm_of; cbn; tauto.
        - intros _. apply r_elm_of. destruct E3 as [E3 Hne]. destruct E3 as [|y t Hy _]; [congruence|]. cbn. unfold digit in Hy. lia. }
      destruct V as [v V]. destruct E1 as [->| ->]; eexists; (eapply a_and; [eapply a_and; [apply a_elm_of; cbn; tauto|exact V]|now apply a_digits1]).
    - intros _. eapply r_and1, r_and1, r_elm_of. eapply after_notin; [exact Hr|]. lits. }
  destruct He' as [ve He'].
  assert (Hd : hd_not is_ascii_digit (e ++ rest)).
  { destruct He as [->|(e' & sg & t & -> & [->| ->] & _)]; [apply after_hd; [exact Hr|reflexivity]|reflexivity|reflexivity]. }
  assert (Hf' : exists v, acc (p_opt frac) f (e ++ rest) v).
  { eapply a_opt_any with (c := false); [exact Hf| |].
    - intros (t & -> & Ht). eexists. unfold frac. eapply a_and; [apply a_elm_ref|]. now apply a_digits1.
    - intros _. eapply r_and1, r_elm_ref.
      destruct He as [->|(e' & sg & t & -> & [->| ->] & _)]; [apply after_not; [exact Hr|lits]|discriminate|discriminate]. }
  destruct Hf' as [vf Hf'].
  assert (Hd2 : hd_not is_ascii_digit (f ++ e ++ rest)).
  { destruct Hf as [->|(t & -> & _)]; [exact Hd|reflexivity]. }
  edestruct a_integer as [vi Hi']; [exact Hi|exact Hd2|].
  assert (Hm' : exists v, acc (p_opt (p_elm_ref (chr "-"))) m (i ++ f ++ e ++ rest) v).
  { eapply a_opt_any with (c := false); [exact Hm| |].
    - intros <-. eexists. apply a_elm_ref.
    - intros _. apply r_elm_ref. destruct (g_int_digits Hi) as (x & t & -> & Hx). cbn. unfold digit in Hx. lia. }
  destruct Hm' as [vm Hm'].
  eapply a_collect. replace (m ++ i ++ f ++ e) with (((m ++ i) ++ f) ++ e) by now rewrite <- !app_assoc.
  eapply a_and; [eapply a_and; [eapply a_and|]|]; eassumption.
Qed.
Lemma r_number : forall F (f64_parse : list N -> F + unit) x l, x <> 45%N -> ~ digit x -> rej (number f64_parse) (x :: l) false.
Proof.
  intros F f64_parse x l H1 H2. unfold number. apply r_map_res, r_collect, r_and1, r_and1.
  change (x :: l) with ([] ++ x :: l). eapply r_and2; [eapply a_opt_none, r_elm_ref; exact H1|].
  unfold integer. apply r_or.
  - apply r_skip_right1. unfold p_elm_digit_1_9_ref, p_filter_not. apply r_filter, r_elm_pred_ref. cbn.
    destruct (is_ascii_digit x) eqn:E; [apply dig_iff in E; tauto|reflexivity].
  - apply r_elm_ref. intros ->. apply H2. unfold digit. cbn. lia.
Qed.

(** ** Strings *)
Lemma h_lit : forall utf8 s, hoare (lit utf8 s) (fun v t => v = s /\ t = s).
Proof. intros [] s; [apply h_seqN|apply h_tag]; auto. Qed.
Lemma a_lit : forall utf8 s rest, acc (lit utf8 s) s rest s.
Proof. intros [] s rest; [apply a_seqN|apply a_tag]. Qed.
Lemma r_lit : forall utf8 c s l, match l with [] => True | y :: _ => y <> c end -> rej (lit utf8 (c :: s)) l false.
Proof. intros [] c s l H; [now apply r_seqN|now apply r_tag]. Qed.
Lemma h_unmap_id : forall A (p : parser N A) Q, hoare (p_map p (fun x => x)) Q -> hoare p Q.
Proof. intros A p Q H inp off Ho. specialize (H inp off Ho). unfold p_map in H. now destruct (p inp off). Qed.
Lemma h_none_ref : forall f (R : N -> list N -> Prop), (forall x, f x = false -> R x [x]) -> hoare (p_none_ref_of f) R.
Proof. intros f R H. apply h_unmap_id. now apply h_none_of_set. Qed.

Definition plain (i : sitem) : Prop := match i with SUni _ => False | _ => True end.
Definition uni (i : sitem) : Prop := match i with SUni _ => True | _ => False end.
Definition no_uni (is : list sitem) : Prop := match is with i :: _ => ~ uni i | [] => True end.
Definition plain_value (i : sitem) : N := match i with SRaw x => x | SEsc c => esc_value c | SUni _ => 0%N end.
Definition hex4 (h : list N) : Prop := Forall hexdig h /\ length h = 4.
Definition enc_of (utf8 : bool) : N -> list N := if utf8 then utf8_encode else fun c => [c].

Lemma esc_cases : forall c, In c ([34; 92]%N ++ bs "/bfnrt") -> (c < 128 /\ esc_value c < 128 /\ c <> 117)%N.
Proof.
  intros c H. cbn in H. repeat (destruct H as [<-|H]; [repeat split; vm_compute; reflexivity || discriminate|]). contradiction.
Qed.
Lemma h_special : hoare special_char (fun v s => exists c, s = [c] /\ v = esc_value c /\ In c ([34; 92]%N ++ bs "/bfnrt")).
Proof.
  assert (A : forall c : N, esc_value c = c -> In c ([34; 92]%N ++ bs "/bfnrt") ->
    hoare (p_elm_ref c) (fun v s => exists c, s = [c] /\ v = esc_value c /\ In c ([34; 92]%N ++ bs "/bfnrt"))).
  { intros c E H. apply h_elm_ref. exists c. auto. }
  assert (B : forall c v : N, esc_value c = v -> In c ([34; 92]%N ++ bs "/bfnrt") ->
    hoare (p_map (p_elm_ref c) (fun _ => v)) (fun v s => exists c, s = [c] /\ v = esc_value c /\ In c ([34; 92]%N ++ bs "/bfnrt"))).
  { intros c v E H. eapply h_map; [apply h_elm_ref with (R := fun _ s => s = [c]); reflexivity|]. cbv beta. intros _ s ->. exists c. auto. }
  unfold special_char. repeat apply h_or; first [apply A|apply B]; try reflexivity; cbn; tauto.
Qed.
Lemma h_char : hoare (p_map (p_or (p_none_ref_of (set_contains [92; 34]%N)) escape_sequence) (fun x => x))
  (fun v s => exists i, s = item_text i /\ plain i /\ item_ok false i /\ v = plain_value i).
Proof.
  eapply h_map; [|intros v s H; exact H]. apply h_or.
  - apply h_none_ref. intros x Hx. exists (SRaw x). cbn [item_text plain item_ok plain_value].
    assert (~ In x [92; 34]%N) as Hn by (intros K; apply set_contains_in in K; congruence). cbn in Hn.
    repeat split; try tauto; try discriminate; intros ->; tauto.
  - unfold escape_sequence. eapply h_skip_left with (P := fun _ s => s = [92%N]); [apply h_elm_ref; reflexivity|apply h_special|].
    cbv beta. intros a b s t -> (c & -> & -> & Hc). exists (SEsc c). now repeat split.
Qed.
Lemma a_special : forall c rest, In c ([34; 92]%N ++ bs "/bfnrt") -> acc special_char [c] rest (esc_value c).
Proof.
  intros c rest H. cbn in H. unfold special_char.
  repeat (destruct H as [<-|H];
    [repeat first [apply a_or1; first [apply a_elm_ref|apply (a_map (fun _ => _)), a_elm_ref]
                  |apply a_or2; [repeat apply r_or; first [apply r_elm_ref; discriminate|apply r_map, r_elm_ref; discriminate]|first [apply a_elm_ref|eapply a_map_eq; [apply a_elm_ref|reflexivity]]]
                  |apply a_or1]|]).
  contradiction.
Qed.
Definition char_elm : parser N N := p_map (p_or (p_none_ref_of (set_contains [92; 34]%N)) escape_sequence) (fun x => x).
Lemma set_not_in : forall l x, ~ In x l -> set_contains l x = false.
Proof. intros l x H. destruct (set_contains l x) eqn:E; [apply set_contains_in in E; contradiction|reflexivity]. Qed.
Lemma a_char : forall i rest, plain i -> item_ok false i -> acc char_elm (item_text i) rest (plain_value i).
Proof.
  intros [x|c|h] rest Hp Hi; [| |contradiction]; unfold char_elm; apply (a_map (fun x => x)); cbn [item_text plain_value] in *.
  - apply a_or1, a_none_ref_of. destruct Hi as (H1 & H2 & _). apply set_not_in. cbn. intros [H|[H|[]]]; congruence.
  - apply a_or2.
    + apply r_none_ref_of. reflexivity.
    + unfold escape_sequence. change [92%N; c] with ([92%N] ++ [c]). eapply a_skip_left; [apply a_elm_ref|]. now apply a_special.
Qed.
Lemma r_char_quote : forall l, rej char_elm (34%N :: l) false.
Proof.
  intros l. unfold char_elm. apply r_map, r_or; [apply r_none_ref_of; reflexivity|]. apply r_skip_left1, r_elm_ref. discriminate.
Qed.
Lemma r_char_u : forall l, rej char_elm (92%N :: 117%N :: l) false.
Proof.
  intros l. unfold char_elm. apply r_map, r_or; [apply r_none_ref_of; reflexivity|]. unfold escape_sequence.
  change (92%N :: 117%N :: l) with ([92%N] ++ 117%N :: l). eapply r_skip_left2; [apply a_elm_ref|].
  unfold special_char. repeat apply r_or; first [apply r_elm_ref; discriminate|apply r_map, r_elm_ref; discriminate].
Qed.

(** The text of a run and its value are valid UTF-8 together. *)
Lemma plain_valid : forall is a, Forall plain is -> Forall (item_ok false) is ->
  utf8_valid (a ++ flat_map item_text is) = utf8_valid (a ++ map plain_value is).
Proof.
  induction is as [|i is IH]; intros a Hp Hi; [reflexivity|]. inv Hp. inv Hi. destruct i as [x|c|h]; [| |contradiction].
  - change (flat_map item_text (SRaw x :: is)) with ([x] ++ flat_map item_text is). cbn [map plain_value].
    change (x :: map plain_value is) with ([x] ++ map plain_value is). rewrite !app_assoc. now apply IH.
  - change (flat_map item_text (SEsc c :: is)) with (92%N :: c :: flat_map item_text is). cbn [map plain_value].
    destruct (@esc_cases c ltac:(assumption)) as (E1 & E2 & _). rewrite !utf8_valid_split by (assumption || reflexivity). f_equal.
    change (c :: flat_map item_text is) with ([] ++ c :: flat_map item_text is). rewrite utf8_valid_split by assumption. cbn [utf8_valid andb].
    exact (IH [] ltac:(assumption) ltac:(assumption)).
Qed.
Lemma plain_items_value : forall enc is js, Forall plain is -> items_value enc (is ++ js) = map plain_value is ++ items_value enc js.
Proof. intros enc is js H. induction H as [|i is Hi _ IH]; [reflexivity|]. destruct i; [| |contradiction]; cbn [app items_value map plain_value]; now rewrite IH. Qed.
Lemma uni_items_value : forall enc n hs js, length hs <= n -> no_uni js ->
  items_value enc (map SUni hs ++ js) = flat_map enc (decode_utf16 (map hex_value hs)) ++ items_value enc js.
Proof.
  intros enc n. induction n as [|n IH]; intros hs js Hn Hj.
  - destruct hs; [reflexivity|cbn in Hn; lia].
  - destruct hs as [|h hs]; [reflexivity|]. cbn [map app items_value decode_utf16 List.length] in *.
    unfold high_surrogate, low_surrogate, in_range.
    destruct ((55296 <=? hex_value h)%N && (hex_value h <=? 56319)%N).
    + destruct hs as [|h2 hs].
      * cbn [map app decode_utf16 flat_map]. rewrite <- app_assoc. cbn [app]. destruct js as [|[x|c|h'] js]; try reflexivity.
        exfalso. now apply Hj.
      * cbn [map app List.length] in *. destruct ((56320 <=? hex_value h2)%N && (hex_value h2 <=? 57343)%N).
        { cbn [flat_map]. rewrite <- app_assoc. f_equal. apply IH; [lia|exact Hj]. }
        { change (flat_map enc (65533%N :: decode_utf16 (hex_value h2 :: map hex_value hs)))
            with (enc 65533%N ++ flat_map enc (decode_utf16 (map hex_value (h2 :: hs)))).
          rewrite <- app_assoc. f_equal. apply (IH (h2 :: hs)); [cbn; lia|exact Hj]. }
    + destruct ((56320 <=? hex_value h)%N && (hex_value h <=? 57343)%N); cbn [flat_map]; rewrite <- app_assoc; f_equal; (apply IH; [lia|exact Hj]).
Qed.

Lemma h_char_string : forall utf8, hoare (char_string utf8) (fun v s => exists is, is <> [] /\ Forall plain is /\ Forall (item_ok false) is /\
  s = flat_map item_text is /\ v = map plain_value is /\ (utf8 = true -> utf8_valid s = true)).
Proof.
  intros utf8. unfold char_string. eapply h_map_res with (Q := fun v s => exists is, is <> [] /\ Forall plain is /\ Forall (item_ok false) is /\
    s = flat_map item_text is /\ v = map plain_value is).
  - eapply h_many1; [apply h_char| |].
    + intros v s (i & -> & Hp & _). destruct i; [discriminate|discriminate|contradiction].
    + intros vs s H Hne. assert (K : exists is, Forall plain is /\ Forall (item_ok false) is /\ s = flat_map item_text is /\ vs = map plain_value is).
      { clear Hne. induction H as [|v s vs t (i & -> & Hp & Hi & ->) _ (is & K1 & K2 & -> & ->)]; [now exists []|].
        exists (i :: is). repeat split; try (now constructor); try assumption. }
      destruct K as (is & K1 & K2 & -> & ->). exists is. repeat split; try assumption. intros ->. now apply Hne.
  - intros v s b (is & H1 & H2 & H3 & -> & ->) E. exists is. unfold run_to_string in E. destruct utf8.
    + unfold from_utf8 in E. destruct (utf8_valid (map plain_value is)) eqn:Ev; [|discriminate]. inv E.
      repeat split; try assumption. intros _. pose proof (plain_valid [] H2 H3) as V. cbn [app] in V. congruence.
    + inv E. now repeat split.
Qed.
Lemma hex_ascii : forall h, Forall hexdig h -> ascii h.
Proof. intros h H. eapply Forall_impl; [|exact H]. unfold hexdig. intros x. lia. Qed.
Lemma parse_hex4 : forall h, hex4 h -> parse_hex 65535 h = inl (hex_value h).
Proof.
  intros h [H L]. unfold parse_hex. destruct h as [|x h]; [discriminate|].
  rewrite (proj2 (forallb_forall is_ascii_hex_digit (x :: h))).
  - pose proof (hex_value_bound H) as B. rewrite L in B. change (16 ^ N.of_nat 4)%N with 65536%N in B.
    destruct (N.leb_spec (hex_value (x :: h)) 65535); [reflexivity|lia].
  - intros y Hy. apply hexdig_iff. now apply (proj1 (Forall_forall _ _) H).
Qed.
Lemma run_hex : forall utf8 h, Forall hexdig h -> run_to_string utf8 h = inl h.
Proof. intros [] h H; [apply ascii_utf8; now apply hex_ascii|reflexivity]. Qed.
Lemma h_utf16_char : forall utf8, hoare (utf16_char utf8) (fun u s => exists h, s = item_text (SUni h) /\ hex4 h /\ u = hex_value h).
Proof.
  intros utf8. unfold utf16_char. eapply h_skip_left with (P := fun _ s => s = [92; 117]%N) (Q := fun u s => hex4 s /\ u = hex_value s);
    [eapply h_weaken; [apply h_lit|now intros v s [_ ->]]| |].
  - eapply h_map_res with (Q := fun v s => v = s /\ hex4 s).
    + eapply h_map_res with (Q := fun v s => v = s /\ hex4 s).
      * change (hoare (p_repeat p_elm_hex_digit (rg_in 4 4)) (fun v s => v = s /\ hex4 s)).
        eapply h_repeat_max with (Q := fun v s => s = [v] /\ hexdig v); [apply h_elm_pred; intros x Hx; split; [reflexivity|now apply hexdig_iff]|now intros v s [-> _]|lia|].
        intros vs s H L. assert (s = vs /\ Forall hexdig s) as [-> K].
        { clear L. induction H as [|v s vs t [-> Hv] _ [-> IH]]; [now split|]. split; [reflexivity|now constructor]. }
        split; [reflexivity|]. split; [exact K|lia].
      * intros v s b [-> H] E. rewrite run_hex in E by apply H. inv E. now split.
    + intros v s b [-> H] E. rewrite parse_hex4 in E by assumption. inv E. exact (conj H eq_refl).
  - cbv beta. intros a b s t -> [H ->]. now exists t.
Qed.

Lemma h_utf16_string : forall utf8, hoare (utf16_string utf8) (fun v s => exists hs, hs <> [] /\ Forall hex4 hs /\
  s = flat_map item_text (map SUni hs) /\ v = flat_map (enc_of utf8) (decode_utf16 (map hex_value hs))).
Proof.
  intros utf8. unfold utf16_string. eapply h_map with (Q := fun us s => exists hs, hs <> [] /\ Forall hex4 hs /\
    s = flat_map item_text (map SUni hs) /\ us = map hex_value hs).
  - eapply h_many1; [apply h_utf16_char| |].
    + intros v s (h & -> & _). discriminate.
    + intros vs s H Hne. assert (K : exists hs, Forall hex4 hs /\ s = flat_map item_text (map SUni hs) /\ vs = map hex_value hs).
      { clear Hne. induction H as [|v s vs t (h & -> & Hh & ->) _ (hs & K1 & -> & ->)]; [now exists []|].
        exists (h :: hs). repeat split; try (now constructor). }
      destruct K as (hs & K1 & -> & ->). exists hs. repeat split; try assumption. intros ->. now apply Hne.
  - intros us s (hs & H1 & H2 & -> & ->). exists hs. repeat split; try assumption.
    unfold chars_to_string, enc_of. destruct utf8; [reflexivity|].
    generalize (decode_utf16 (map hex_value hs)). intros l. induction l as [|x l IH]; [reflexivity|]. cbn. now rewrite <- IH.
Qed.
Lemma a_utf16_char : forall utf8 h rest, hex4 h -> acc (utf16_char utf8) (item_text (SUni h)) rest (hex_value h).
Proof.
  intros utf8 h rest H. unfold utf16_char. cbn [item_text]. eapply a_skip_left; [apply a_lit|].
  eapply a_map_res; [|now apply parse_hex4]. eapply a_map_res; [|now apply run_hex; apply H].
  destruct H as [H L]. apply a_count; [|exact L|lia].
  apply chain_class with (f := is_ascii_hex_digit); [intros x r Hx; now apply a_elm_pred|].
  eapply Forall_impl; [|exact H]. intros x. apply hexdig_iff.
Qed.
Lemma r_utf16_hd : forall utf8 l, match l with [] => True | y :: _ => y <> 92%N end -> rej (utf16_char utf8) l false.
Proof. intros utf8 l H. apply r_skip_left1, r_lit. exact H. Qed.
Lemma r_utf16_esc : forall utf8 c l, c <> 117%N -> rej (utf16_char utf8) (92%N :: c :: l) true.
Proof.
  intros utf8 c l H. apply r_skip_left1. intros pre. unfold lit. destruct utf8.
  - unfold p_seqN, p_seq. rewrite input_at. cbn [seq_loop]. change (N.eqb 92 92) with true. cbn [negb].
    destruct (N.eqb_spec 117 c); [congruence|]. cbn. eauto.
  - unfold p_tag, p_tag_by. rewrite input_at. cbn [tag_loop]. change (N.eqb 92 92) with true. cbn [negb].
    destruct (N.eqb_spec 117 c); [congruence|]. cbn. eauto.
Qed.

(** Positions inside an input. *)
Lemma skipn_split : forall (inp : list N) pos s t m, pos + m <= length inp -> firstn m (skipn pos inp) = s ++ t ->
  exists rest, inp = firstn pos inp ++ s ++ rest /\ length (firstn pos inp) = pos.
Proof.
  intros inp pos s t m L E. exists (t ++ skipn m (skipn pos inp)). split.
  - rewrite (app_assoc s), <- E, firstn_skipn, firstn_skipn. reflexivity.
  - apply firstn_length_le. lia.
Qed.
(** The pieces of a string body. *)
Definition pieces (utf8 : bool) : parser N (list N) := p_or (char_string utf8) (utf16_string utf8).
Definition body (utf8 : bool) (vs : list (list N)) (s : list N) : Prop := exists is, Forall (item_ok false) is /\ s = flat_map item_text is /\
  List.concat vs = items_value (enc_of utf8) is /\ (utf8 = true -> utf8_valid s = true).
Lemma h_pieces : forall utf8, hoare (pieces utf8) (fun v s => s <> []).
Proof.
  intros utf8. apply h_or.
  - eapply h_weaken; [apply h_char_string|]. intros v s (is & H1 & H2 & H3 & -> & _). destruct is as [|i is]; [congruence|].
    inv H2. destruct i; [discriminate|discriminate|contradiction].
  - eapply h_weaken; [apply h_utf16_string|]. intros v s (hs & H1 & H2 & -> & _). destruct hs as [|h hs]; [congruence|discriminate].
Qed.
Lemma uni_valid : forall hs s, Forall hex4 hs -> utf8_valid (flat_map item_text (map SUni hs) ++ s) = utf8_valid s.
Proof.
  intros hs s H. induction H as [|h hs [Hh _] _ IH]; [reflexivity|]. cbn [map flat_map item_text]. rewrite <- !app_assoc.
  rewrite utf8_valid_app by reflexivity. rewrite utf8_valid_app; [exact IH|].
  apply hex_ascii, ascii_utf8 in Hh. unfold from_utf8 in Hh. now destruct (utf8_valid h).
Qed.
Lemma steps_body : forall utf8 inp pos vs l, steps (pieces utf8) inp pos vs l -> pos <= length inp ->
  pos + l <= length inp /\ body utf8 vs (firstn l (skipn pos inp)).
Proof.
  intros utf8 inp pos vs l H. induction H as [pos|pos v n vs m H H' IH]; intros Ho.
  - split; [lia|]. exists []. repeat split. constructor.
  - unfold pieces, p_or in H. destruct (char_string utf8 inp pos) as [v1 n1|e c| |] eqn:E1.
    + inv H. destruct (h_success (h_char_string utf8) Ho E1) as [B (is & I1 & I2 & I3 & Es & -> & Iv)].
      destruct (IH B) as [B2 (js & J1 & Ej & J2 & J3)]. split; [lia|]. exists (is ++ js).
      rewrite firstn_split. repeat split.
      * apply Forall_app. now split.
      * rewrite flat_map_app. congruence.
      * cbn [List.concat]. rewrite J2. now rewrite plain_items_value.
      * intros Hu. rewrite utf8_valid_app by now apply Iv. now apply J3.
    + destruct c; [discriminate|]. cbn in H.
      destruct (h_success (h_utf16_string utf8) Ho H) as [B (hs & I1 & I2 & Es & ->)].
      destruct (IH B) as [B2 (js & J1 & Ej & J2 & J3)]. split; [lia|]. exists (map SUni hs ++ js).
      assert (Hn : no_uni js).
      { destruct js as [|[x|c|h] js]; [exact Logic.I|exact (fun K => K)|exact (fun K => K)|]. exfalso.
        unfold utf16_string, p_map in H. destruct (p_many1 (utf16_char utf8) inp pos) as [us k|e' c'| |] eqn:Em; try discriminate. inv H.
        unfold p_many1 in Em. apply many_none_success in Em; [|eapply h_bounded, h_utf16_char|exact Ho|exact Logic.I].
        destruct Em as (_ & _ & _ & [(e'' & c'' & F)|F]); [|now apply F].
        inv J1. cbn [flat_map] in Ej. destruct (@skipn_split _ _ _ _ _ B2 Ej) as (rest & Ei & El).
        pose proof (a_utf16_char utf8 rest ltac:(eassumption) (firstn (pos + n) inp)) as A. rewrite <- Ei, El in A. congruence. }
      rewrite firstn_split. repeat split.
      * apply Forall_app. split; [|exact J1]. apply Forall_forall. intros i Hi. apply in_map_iff in Hi. destruct Hi as (h & <- & Hh).
        now apply (proj1 (Forall_forall _ _) I2).
      * rewrite flat_map_app. congruence.
      * cbn [List.concat]. rewrite J2. now rewrite uni_items_value with (n := length hs).
      * intros Hu. rewrite Es, uni_valid by assumption. now apply J3.
    + discriminate.
    + discriminate.
Qed.
Lemma h_string : forall utf8, hoare (string_p utf8) (g_string false utf8).
Proof.
  intros utf8. unfold string_p. eapply h_map with (Q := fun vs s => g_string false utf8 (List.concat vs) s); [|auto].
  eapply h_surround with (L := fun _ s => s = [34%N]) (P := body utf8) (R := fun _ s => s = [34%N]).
  - apply h_elm_ref. reflexivity.
  - intros inp off Ho.
    assert (H : hoare (p_many0 (pieces utf8)) (fun _ _ => True)).
    { eapply h_many0; [apply h_pieces|auto|auto]. }
    specialize (H inp off Ho). destruct (p_many0 (pieces utf8) inp off) as [vs l|e c| |] eqn:E; fold (pieces utf8); rewrite E; try exact H.
    unfold p_many0 in E. apply many_none_success in E; [|eapply h_bounded, h_pieces|exact Ho|exact Logic.I].
    destruct E as (E & _). now apply steps_body.
  - apply h_elm_ref. reflexivity.
  - cbv beta. intros a b c s t u -> (is & H1 & -> & H2 & H3) ->. now exists is.
Qed.
(** A list of items starts with a maximal run of one kind. *)
Lemma plain_or_uni : forall i, plain i \/ exists h, i = SUni h.
Proof. intros [x|c|h]; [now left|now left|right; eauto]. Qed.
Lemma span_plain : forall is, exists js ks, is = js ++ ks /\ Forall plain js /\ match ks with [] => True | i :: _ => exists h, i = SUni h end.
Proof.
  induction is as [|i is (js & ks & -> & H1 & H2)]; [exists [], []; repeat constructor|].
  destruct (plain_or_uni i) as [H|[h ->]].
  - exists (i :: js), ks. repeat split; [now constructor|exact H2].
  - exists [], (SUni h :: js ++ ks). repeat split; [constructor|eauto].
Qed.
Lemma span_uni : forall is, exists hs ks, is = map SUni hs ++ ks /\ no_uni ks.
Proof.
  induction is as [|i is (hs & ks & -> & H)]; [exists [], []; repeat constructor|].
  destruct (plain_or_uni i) as [Hi|[h ->]].
  - exists [], (i :: map SUni hs ++ ks). split; [reflexivity|]. destruct i; [exact (fun K => K)|exact (fun K => K)|contradiction].
  - exists (h :: hs), ks. now split.
Qed.
Lemma chain_items : forall A B (p : parser N A) (f : B -> A) (txt : B -> list N) is rest,
  (forall i rest, In i is -> acc p (txt i) rest (f i)) -> (forall i, In i is -> txt i <> []) -> chain p (flat_map txt is) rest (map f is).
Proof.
  intros A B p f txt is rest Ha Hn. induction is as [|i is IH]; [constructor|]. cbn [flat_map map].
  constructor; [apply Ha; now left|apply Hn; now left|]. apply IH; intros; [apply Ha|apply Hn]; now right.
Qed.
Lemma chain_pieces : forall utf8 n is rest, length is <= n -> Forall (item_ok false) is ->
  (utf8 = true -> utf8_valid (flat_map item_text is) = true) ->
  exists vs, chain (pieces utf8) (flat_map item_text is) (34%N :: rest) vs /\ List.concat vs = items_value (enc_of utf8) is.
Proof.
  intros utf8 n. induction n as [|n IH]; intros is rest Hn Hi Hv.
  { destruct is; [|cbn in Hn; lia]. exists []. split; [constructor|reflexivity]. }
  destruct is as [|i is]; [exists []; split; [constructor|reflexivity]|].
  destruct (plain_or_uni i) as [Hp|[h ->]].
  - destruct (span_plain (i :: is)) as (js & ks & E & J & K). destruct js as [|j js].
    { exfalso. cbn in E. subst ks. destruct K as [h ->]. contradiction. }
    rewrite E in *. apply Forall_app in Hi. destruct Hi as [Ij Ik].
    assert (L : length ks <= n) by (rewrite app_length in Hn; cbn [List.length] in Hn; lia).
    assert (Vj : utf8 = true -> utf8_valid (flat_map item_text (j :: js)) = true /\ utf8_valid (flat_map item_text ks) = true).
    { intros Hu. specialize (Hv Hu). rewrite flat_map_app in Hv. destruct ks as [|k ks].
      - cbn [flat_map] in Hv |- *. rewrite app_nil_r in Hv. split; [exact Hv|reflexivity].
      - destruct K as [h ->]. cbn [flat_map item_text app] in Hv. change ((92 :: 117 :: h)%N ++ flat_map item_text ks) with (92%N :: (117%N :: h) ++ flat_map item_text ks) in Hv.
        rewrite utf8_valid_split in Hv by reflexivity. apply andb_true_iff in Hv. exact Hv. }
    destruct (IH ks rest L Ik ltac:(intros Hu; now apply Vj)) as (vs & C & Ec).
    exists (map plain_value (j :: js) :: vs). split.
    + rewrite flat_map_app. constructor.
      * apply a_or1. unfold char_string. eapply a_map_res with (v := map plain_value (j :: js)).
        { eapply a_many1 with (c := false).
          - apply chain_items; intros i' * Hin.
            + apply a_char; [now apply (proj1 (Forall_forall _ _) J)|now apply (proj1 (Forall_forall _ _) Ij)].
            + apply (proj1 (Forall_forall _ _) J) in Hin. destruct i'; [discriminate|discriminate|contradiction].
          - destruct ks as [|k ks]; [apply r_char_quote|]. destruct K as [h ->]. apply r_char_u.
          - discriminate. }
        unfold run_to_string. destruct utf8; [|reflexivity]. unfold from_utf8.
        pose proof (plain_valid [] J Ij) as V. cbn [app] in V. rewrite <- V. now rewrite (proj1 (Vj eq_refl)).
      * inv J. destruct j; [discriminate|discriminate|contradiction].
      * exact C.
    + cbn [List.concat]. rewrite Ec. now rewrite plain_items_value.
  - destruct (span_uni (SUni h :: is)) as (hs & ks & E & K). destruct hs as [|h0 hs].
    { exfalso. cbn in E. subst ks. now apply K. }
    rewrite E in *. apply Forall_app in Hi. destruct Hi as [Ij Ik].
    assert (L : length ks <= n).
    { rewrite app_length in Hn; cbn [List.length map] in Hn; lia. }
    assert (Hh : Forall hex4 (h0 :: hs)).
    { apply Forall_forall. intros x Hx. exact (proj1 (Forall_forall _ _) Ij (SUni x) (in_map SUni _ _ Hx)). }
    destruct (IH ks rest L Ik) as (vs & C & Ec).
    { intros Hu. specialize (Hv Hu). rewrite flat_map_app in Hv. now rewrite uni_valid in Hv. }
    exists (flat_map (enc_of utf8) (decode_utf16 (map hex_value (h0 :: hs))) :: vs). split.
    + rewrite flat_map_app. constructor.
      * apply a_or2; [apply r_map_res; eapply r_many1, r_char_u|].
        unfold utf16_string. eapply a_map_eq with (v := map hex_value (h0 :: hs)).
        { assert (R : exists c, rej (utf16_char utf8) (flat_map item_text ks ++ 34%N :: rest) c).
          { destruct ks as [|[x|c|h'] ks].
            - eexists. apply r_utf16_hd. discriminate.
            - eexists. apply r_utf16_hd. inv Ik. now match goal with H : item_ok _ _ |- _ => destruct H as (_ & H & _) end.
            - eexists. apply r_utf16_esc. inv Ik. match goal with H : item_ok _ _ |- _ => exact (proj2 (proj2 (@esc_cases _ H))) end.
            - now destruct K. }
          destruct R as [c R]. eapply a_many1; [|exact R|discriminate].
          rewrite flat_map_concat_map, map_map, <- flat_map_concat_map.
          apply chain_items; intros h' * Hin; [|discriminate].
          apply a_utf16_char. now apply (proj1 (Forall_forall _ _) Hh). }
        unfold chars_to_string, enc_of. destruct utf8; [reflexivity|].
        generalize (decode_utf16 (map hex_value (h0 :: hs))). intros l. induction l as [|x l IHl]; [reflexivity|]. cbn. now rewrite IHl.
      * discriminate.
      * exact C.
    + cbn [List.concat]. rewrite Ec. now rewrite uni_items_value with (n := length (h0 :: hs)).
Qed.
Lemma r_pieces_quote : forall utf8 l, rej (pieces utf8) (34%N :: l) false.
Proof.
  intros utf8 l. apply r_or.
  - apply r_map_res. eapply r_many1, r_char_quote.
  - apply r_map. eapply r_many1, r_utf16_hd. discriminate.
Qed.
Lemma a_string : forall utf8 v s rest, g_string false utf8 v s -> acc (string_p utf8) s rest v.
Proof.
  intros utf8 v s rest (is & Hi & -> & -> & Hv). fold (enc_of utf8).
  destruct (@chain_pieces utf8 _ is rest (le_n _) Hi Hv) as (vs & C & E). unfold string_p.
  eapply a_map_eq; [|symmetry; exact E].
  eapply a_surround; [apply a_elm_ref| |apply a_elm_ref].
  eapply a_many0; [exact C|apply r_pieces_quote].
Qed.
Lemma r_string : forall utf8 l, match l with [] => True | y :: _ => y <> 34%N end -> rej (string_p utf8) l false.
Proof. intros utf8 l H. apply r_map, r_surround1, r_elm_ref. exact H. Qed.

(** ** Values: every success spells a value of the lenient grammar. *)
Section Values.
Variable F : Type.
Variable f64_parse : list N -> F + unit.
Variable utf8 : bool.
Notation jval0 := (jval f64_parse false utf8).
Notation jelems0 := (jelems f64_parse false utf8).
Notation jmembers0 := (jmembers f64_parse false utf8).

Lemma string_ne : forall strict v s, g_string strict utf8 v s -> exists t, s = 34%N :: t.
Proof. intros strict v s (is & _ & -> & _). cbn. eauto. Qed.
Lemma number_hd : forall s, g_number s -> exists x t, s = x :: t /\ (x = 45%N \/ digit x).
Proof.
  intros s (m & i & f & e & -> & [->|<-] & Hi & _).
  - destruct (g_int_digits Hi) as (x & t & -> & Hx). exists x, (t ++ f ++ e). split; [reflexivity|now right].
  - exists 45%N, (i ++ f ++ e). split; [reflexivity|now left].
Qed.
(** First character of a value. *)
Lemma jval_hd : forall strict v s, jval f64_parse strict utf8 v s -> exists x t, s = x :: t /\ (digit x \/ In x (34%N :: bs "-ntf[{")).
Proof.
  intros strict v s H. destruct H; try (eexists; eexists; split; [reflexivity|right; cbn; tauto]).
  - apply number_hd in H. destruct H as (y & t & -> & [->|Hy]); exists y || exists 45%N; exists t; (split; [reflexivity|]); [right; cbn; tauto|now left].
  - apply string_ne in H. destruct H as [t ->]. exists 34%N, t. split; [reflexivity|right; now left].
Qed.
Lemma jval_ne : forall strict v s, jval f64_parse strict utf8 v s -> s <> [].
Proof. intros strict v s H. destruct (jval_hd H) as (x & t & -> & _). discriminate. Qed.

Definition q_value (v : json F) (s : list N) : Prop := exists s0 w, s = s0 ++ w /\ jval0 v s0 /\ ws w.
Definition q_sep (s : list N) : Prop := exists a b, s = a ++ bs "," ++ b /\ ws a /\ ws b.
Definition q_member (kv : list N * json F) (s : list N) : Prop := exists sk a b s0,
  s = sk ++ a ++ bs ":" ++ b ++ s0 /\ g_string false utf8 (fst kv) sk /\ ws a /\ ws b /\ q_value (snd kv) s0.
Lemma tail_elems : forall vs u, SepTail q_value (fun (_ : unit) => q_sep) vs u -> forall v s a b, q_value v s -> ws a -> ws b ->
  exists s' t, jelems0 (v :: vs) s' /\ trailing false t /\ a ++ s ++ u ++ b = s' ++ t.
Proof.
  intros vs u H. induction H as [|w t (c & d & -> & Hc & Hd)|w t v' s' vs u (c & d & -> & Hc & Hd) Hq _ IH]; intros v s a b (s0 & e & -> & Hv & He) Ha Hb.
  - exists (a ++ s0 ++ e ++ b), []. repeat split; [|now left|now rewrite app_nil_r, <- app_assoc].
    apply je_one; [exact Ha|exact Hv|now apply ws_app].
  - exists (a ++ s0 ++ e ++ c), (bs "," ++ d ++ b). repeat split.
    + apply je_one; [exact Ha|exact Hv|now apply ws_app].
    + right. split; [reflexivity|]. exists (d ++ b). split; [reflexivity|now apply ws_app].
    + now rewrite <- !app_assoc.
  - destruct (IH v' s' d b Hq Hd Hb) as (s1 & t & H1 & H2 & E).
    exists (a ++ s0 ++ (e ++ c) ++ bs "," ++ s1), t. repeat split; [|exact H2|].
    + apply je_more; [exact Ha|exact Hv|now apply ws_app|exact H1].
    + rewrite <- !app_assoc. now rewrite E.
Qed.
Lemma tail_members : forall ms u, SepTail q_member (fun (_ : unit) => q_sep) ms u -> forall m s a b, q_member m s -> ws a -> ws b ->
  exists s' t, jmembers0 (m :: ms) s' /\ trailing false t /\ a ++ s ++ u ++ b = s' ++ t.
Proof.
  intros vs u H. induction H as [|w t (c & d & -> & Hc & Hd)|w t v' s' vs u (c & d & -> & Hc & Hd) Hq _ IH];
    intros [k v] s a b (sk & f & g & sv & -> & Hk & Hf & Hg & (s0 & e & -> & Hv & He)) Ha Hb; cbn [fst snd] in *.
  - exists (a ++ sk ++ f ++ bs ":" ++ g ++ s0 ++ e ++ b), []. repeat split; [|now left|now rewrite app_nil_r, <- !app_assoc].
    apply jm_one; try assumption. now apply ws_app.
  - exists (a ++ sk ++ f ++ bs ":" ++ g ++ s0 ++ e ++ c), (bs "," ++ d ++ b). repeat split.
    + apply jm_one; try assumption. now apply ws_app.
    + right. split; [reflexivity|]. exists (d ++ b). split; [reflexivity|now apply ws_app].
    + now rewrite <- !app_assoc.
  - destruct (IH v' s' d b Hq Hd Hb) as (s1 & t & H1 & H2 & E).
    exists (a ++ sk ++ f ++ bs ":" ++ g ++ s0 ++ (e ++ c) ++ bs "," ++ s1), t. repeat split; [|exact H2|].
    + apply jm_more; try assumption. now apply ws_app.
    + rewrite <- !app_assoc. now rewrite E.
Qed.

Lemma h_sep1 : hoare (p_and (p_and space (p_elm_ref (chr ","))) space) (fun _ => q_sep).
Proof.
  eapply h_and with (P := fun _ s => exists a, s = a ++ bs "," /\ ws a); [|apply h_space|].
  - eapply h_and; [apply h_space|apply h_elm_ref with (R := fun _ s => s = bs ","); reflexivity|]. cbv beta. intros _ _ s t Hs ->. now exists s.
  - cbv beta. intros _ _ s t (a & -> & Ha) Ht. exists a, t. now rewrite <- app_assoc.
Qed.
Lemma h_sep2 : hoare (p_skip_right (p_skip_left space (p_elm_ref (chr ","))) space) (fun _ => q_sep).
Proof.
  eapply h_skip_right with (P := fun _ s => exists a, s = a ++ bs "," /\ ws a); [|apply h_space|].
  - eapply h_skip_left; [apply h_space|apply h_elm_ref with (R := fun _ s => s = bs ","); reflexivity|]. cbv beta. intros _ _ s t Hs ->. now exists s.
  - cbv beta. intros _ _ s t (a & -> & Ha) Ht. exists a, t. now rewrite <- app_assoc.
Qed.
Lemma h_open1 : forall c, hoare (p_and (p_elm_ref c) space) (fun _ s => exists a, s = [c] ++ a /\ ws a).
Proof. intros c. eapply h_and; [apply h_elm_ref with (R := fun _ s => s = [c]); reflexivity|apply h_space|]. cbv beta. intros _ _ s t -> Ht. now exists t. Qed.
Lemma h_open2 : forall c, hoare (p_skip_right (p_elm_ref c) space) (fun _ s => exists a, s = [c] ++ a /\ ws a).
Proof. intros c. eapply h_skip_right; [apply h_elm_ref with (R := fun _ s => s = [c]); reflexivity|apply h_space|]. cbv beta. intros _ _ s t -> Ht. now exists t. Qed.
Lemma h_close1 : forall c, hoare (p_and space (p_elm_ref c)) (fun _ s => exists a, s = a ++ [c] /\ ws a).
Proof. intros c. eapply h_and; [apply h_space|apply h_elm_ref with (R := fun _ s => s = [c]); reflexivity|]. cbv beta. intros _ _ s t Hs ->. now exists s. Qed.
Lemma h_close2 : forall c, hoare (p_skip_left space (p_elm_ref c)) (fun _ s => exists a, s = a ++ [c] /\ ws a).
Proof. intros c. eapply h_skip_left; [apply h_space|apply h_elm_ref with (R := fun _ s => s = [c]); reflexivity|]. cbv beta. intros _ _ s t Hs ->. now exists s. Qed.
Lemma q_value_ne : forall v s, q_value v s -> s <> [].
Proof. intros v s (s0 & w & -> & H & _) E. apply app_eq_nil in E. destruct E as [-> _]. now apply jval_ne in H. Qed.
Lemma q_member_ne : forall v s, q_member v s -> s <> [].
Proof. intros v s (sk & a & b & s0 & -> & H & _). apply string_ne in H. destruct H as [t ->]. discriminate. Qed.
Lemma app_ne : forall (t s : list N), s <> [] -> t ++ s <> [].
Proof. intros t s H E. apply app_eq_nil in E. tauto. Qed.

Lemma h_sep_any : forall B (p : parser N B), hoare p (fun _ => q_sep) ->
  forall A (p' : parser N A) Q, hoare p' Q -> (forall v s, Q v s -> s <> []) ->
  hoare (p_many0_sep p' p) (fun vs s => vs = [] /\ s = [] \/ exists v s0 vs' t, vs = v :: vs' /\ s = s0 ++ t /\ Q v s0 /\ SepTail Q (fun (_ : unit) => q_sep) vs' t).
Proof.
  intros B p Hs A p' Q Hp Hne. eapply h_many0_sep; [exact Hp|exact Hs| | |].
  - intros v s w t HQ _. apply app_ne. eauto.
  - now left.
  - intros v s vs t HQ HT. right. exists v, s, vs, t. repeat split; [exact HQ|].
    clear -HT. induction HT; econstructor; eauto using tt.
    Unshelve. all: exact tt.
Qed.
Lemma h_array : forall value, hoare value q_value -> hoare (array utf8 value) (fun vs s => jval0 (JArray vs) s).
Proof.
  intros value Hv.
  assert (K : forall a b vs t, ws a -> ws b ->
    (vs = [] /\ t = [] \/ exists v s0 vs' u, vs = v :: vs' /\ t = s0 ++ u /\ q_value v s0 /\ SepTail q_value (fun (_ : unit) => q_sep) vs' u) ->
    jval0 (JArray vs) (([91%N] ++ a) ++ t ++ b ++ [93%N])).
  { intros a b vs t Ha Hb [[-> ->]|(v & s0 & vs' & u & -> & -> & Hq & HT)].
    - cbn [app]. rewrite app_assoc. apply (@j_arr0 F f64_parse false utf8 (a ++ b)). now apply ws_app.
    - destruct (tail_elems HT Hq Ha Hb) as (s' & t & H1 & H2 & E).
      replace (([91%N] ++ a) ++ (s0 ++ u) ++ b ++ [93%N]) with (bs "[" ++ s' ++ t ++ bs "]"); [now apply j_arr|].
      rewrite <- !app_assoc. change (bs "[") with [91%N]. change (bs "]") with [93%N]. f_equal. rewrite !app_assoc, <- E. now rewrite <- !app_assoc. }
  enough (G : forall u, hoare (array u value) (fun vs s => jval0 (JArray vs) s)) by apply G. intros []; unfold array.
  - eapply h_surround; [apply h_open1|apply h_sep_any; [apply h_sep1|apply h_lazy, Hv|apply q_value_ne]|apply h_close1|].
    cbv beta. intros _ vs _ s t u (a & -> & Ha) HT (b & -> & Hb). now apply K.
  - eapply h_surround; [apply h_open2|apply h_sep_any; [apply h_sep2|apply h_lazy, Hv|apply q_value_ne]|apply h_close2|].
    cbv beta. intros _ vs _ s t u (a & -> & Ha) HT (b & -> & Hb). now apply K.
Qed.

Lemma h_member : forall value, hoare value q_value -> hoare (member utf8 value) q_member.
Proof.
  intros value Hv. unfold member.
  eapply h_and with (P := fun k s => exists sk a b, s = sk ++ a ++ bs ":" ++ b /\ g_string false utf8 k sk /\ ws a /\ ws b); [|apply h_lazy, Hv|].
  - eapply h_skip_right with (P := fun k s => exists sk a, s = sk ++ a ++ bs ":" /\ g_string false utf8 k sk /\ ws a); [|apply h_space|].
    + eapply h_skip_right with (P := fun k s => exists sk a, s = sk ++ a /\ g_string false utf8 k sk /\ ws a);
        [|apply h_elm_ref with (R := fun _ s => s = bs ":"); reflexivity|].
      * eapply h_skip_right; [apply h_string|apply h_space|]. cbv beta. intros k _ s t Hs Ht. now exists s, t.
      * cbv beta. intros k _ s t (sk & a & -> & H1 & H2) ->. exists sk, a. now rewrite <- app_assoc.
    + cbv beta. intros k _ s t (sk & a & -> & H1 & H2) Ht. exists sk, a, t. now rewrite <- !app_assoc.
  - cbv beta. intros k v s t (sk & a & b & -> & H1 & H2 & H3) Ht. exists sk, a, b, t. now rewrite <- !app_assoc.
Qed.
Lemma h_object : forall value, hoare value q_value -> hoare (object utf8 value) (fun ms s => jval0 (JObject ms) s).
Proof.
  intros value Hv. unfold object.
  eapply h_map with (Q := fun ms s => jval0 (JObject (hm_collect ms)) s); [|auto].
  eapply h_surround; [apply h_open1|apply h_sep_any; [apply h_sep1|apply h_member, Hv|apply q_member_ne]|apply h_close1|].
  cbv beta. intros _ ms _ s t u (a & -> & Ha) [[-> ->]|(v & s0 & vs' & w & -> & -> & Hq & HT)] (b & -> & Hb).
  - cbn [app]. rewrite app_assoc. apply (@j_obj0 F f64_parse false utf8 (a ++ b)). now apply ws_app.
  - destruct (tail_members HT Hq Ha Hb) as (s' & t & H1 & H2 & E).
    replace (([chr "{"] ++ a) ++ (s0 ++ w) ++ b ++ [chr "}"]) with (bs "{" ++ s' ++ t ++ bs "}"); [now apply j_obj|].
    rewrite <- !app_assoc. change (bs "{") with [chr "{"]. change (bs "}") with [chr "}"]. f_equal. rewrite !app_assoc, <- E. now rewrite <- !app_assoc.
Qed.
Lemma h_value_step : forall value, hoare value q_value -> hoare (value_step f64_parse utf8 value) q_value.
Proof.
  intros value Hv. unfold value_step. eapply h_skip_right with (P := fun v s => jval0 v s); [|apply h_space|].
  - repeat apply h_or.
    + eapply h_map; [apply h_lit|]. cbv beta. intros v s [_ ->]. constructor.
    + eapply h_map; [apply h_lit|]. cbv beta. intros v s [_ ->]. constructor.
    + eapply h_map; [apply h_lit|]. cbv beta. intros v s [_ ->]. constructor.
    + eapply h_map; [apply h_number|]. cbv beta. intros v s [H1 H2]. now constructor.
    + eapply h_map; [apply h_string|]. cbv beta. intros v s H. now constructor.
    + eapply h_map; [apply h_array, Hv|]. cbv beta. auto.
    + eapply h_map; [apply h_object, Hv|]. cbv beta. auto.
  - cbv beta. intros v _ s t Hs Ht. now exists s, t.
Qed.
(** The recursion with failure instead of divergence at its bound. *)
Fixpoint value_safe (n : nat) : parser N (json F) :=
  match n with
  | 0 => p_failed Incomplete Uncommitted
  | S n' => value_step f64_parse utf8 (value_safe n')
  end.
Lemma h_value_safe : forall n, hoare (value_safe n) q_value.
Proof. induction n as [|n IH]; [apply h_failed|]. now apply h_value_step. Qed.

Lemma elm_ref_out : forall c (inp : list N) off v n, length inp < off -> p_elm_ref c inp off <> Success v n.
Proof.
  intros c inp off v n H. unfold p_elm_ref, p_elm_ref_eq, p_elm_pred_ref, ps_input, slice_from.
  destruct (Nat.leb_spec off (length inp)); [lia|]. discriminate.
Qed.
Lemma consumes_open1 : forall c, consumes (p_and (p_elm_ref c) space).
Proof.
  intros c. eapply hoare_consumes; [apply h_open1|intros v s (a & -> & _); discriminate|].
  intros inp off Ho v n E. unfold p_and in E. destruct (p_elm_ref c inp off) eqn:E1; try discriminate. now apply elm_ref_out in E1.
Qed.
Lemma consumes_open2 : forall c, consumes (p_skip_right (p_elm_ref c) space).
Proof.
  intros c. eapply hoare_consumes; [apply h_open2|intros v s (a & -> & _); discriminate|].
  intros inp off Ho v n E. unfold p_skip_right in E. destruct (p_elm_ref c inp off) eqn:E1; try discriminate. now apply elm_ref_out in E1.
Qed.
Lemma ag_value_step : forall n p q, agree n p q -> agree (S n) (value_step f64_parse utf8 p) (value_step f64_parse utf8 q).
Proof.
  intros n p q H. unfold value_step. apply ag_skip_right; [|apply ag_refl].
  repeat (apply ag_or; [|apply ag_map]); try apply ag_refl.
  - unfold array. destruct utf8; (apply ag_surround_S; [apply consumes_open1 || apply consumes_open2|]); apply ag_repeat_sep, ag_lazy, H.
  - unfold object. apply ag_map, ag_surround_S; [apply consumes_open1|]. apply ag_repeat_sep. unfold member. apply ag_and; [apply ag_refl|]. apply ag_lazy, H.
Qed.
Lemma ag_value : forall n m, n <= m -> agree n (value_fuel f64_parse utf8 m) (value_safe n).
Proof.
  induction n as [|n IH]; intros m Hm.
  - intros inp off H. lia.
  - destruct m as [|m]; [lia|]. cbn [value_fuel value_safe]. apply ag_value_step, IH. lia.
Qed.
(** Fuel one more than the length of the input is enough, and more fuel changes nothing. *)
Lemma json_fuel_enough : forall inp off fuel, length inp < fuel -> json_fuel f64_parse utf8 fuel inp off = json_p f64_parse utf8 inp off.
Proof.
  intros inp off fuel H. unfold json_p, json_fuel.
  assert (G : agree (S (length inp)) (value_fuel f64_parse utf8 fuel) (value_fuel f64_parse utf8 (S (length inp)))).
  { intros i o Hl. rewrite (ag_value H), (ag_value (le_n _)) by exact Hl. reflexivity. }
  apply (ag_skip_right (ag_skip_left (ag_refl space) G) (ag_refl _)). lia.
Qed.
Lemma h_json : forall inp, match json_p f64_parse utf8 inp 0 with
  | Success v n => n = length inp /\ jdoc f64_parse false utf8 v inp
  | Failure _ _ => True
  | Panic | Diverge => False
  end.
Proof.
  intros inp. unfold json_p, json_fuel.
  assert (G : agree (S (length inp)) (value_fuel f64_parse utf8 (S (length inp))) (value_safe (S (length inp)))) by (apply ag_value; lia).
  rewrite (ag_skip_right (ag_skip_left (ag_refl space) G) (ag_refl p_end)) by lia.
  assert (H : hoare (p_skip_left space (value_safe (S (length inp)))) (jdoc f64_parse false utf8)).
  { eapply h_skip_left; [apply h_space|apply h_value_safe|]. cbv beta. intros _ v s t Hs (s0 & w & -> & Hv & Hw). now exists s, s0, w. }
  specialize (H inp 0 ltac:(lia)). unfold p_skip_right.
  destruct (p_skip_left space (value_safe (S (length inp))) inp 0) as [v n|e c| |]; try exact H.
  destruct H as [L H]. cbn in L. pose proof (@h_end N (fun _ _ => True) I inp (0 + n) L) as He.
  destruct (p_end inp (0 + n)) as [u m|e c| |] eqn:E; try exact He.
  unfold p_end in E. rewrite ps_input_ok in E by exact L. destruct (skipn (0 + n) inp) eqn:Es; [|discriminate]. inv E.
  cbn in L, Es, H. assert (n = length inp) as ->.
  { pose proof (skipn_length n inp) as K. rewrite Es in K. cbn in K. lia. }
  rewrite firstn_all in H. split; [lia|exact H].
Qed.

(** ** Every text of the lenient grammar is accepted. *)
Notation value := (value_fuel f64_parse utf8).
Definition stop (l : list N) : Prop := match l with [] => True | x :: _ => In x (bs ",]}") end.
Lemma stop_no_ws : forall l, stop l -> no_ws l.
Proof. intros [|x l] H; [exact I|]. cbn in H |- *. unfold is_ws. cbn. intuition congruence. Qed.
Lemma stop_after : forall w l, ws w -> stop l -> after (w ++ l).
Proof.
  intros w l Hw Hl. destruct Hw as [|x w Hx _]; cbn [app].
  - destruct l as [|y l]; [exact I|]. unfold after, stop in *. apply in_or_app. now right.
  - unfold after. apply in_or_app. now left.
Qed.
Lemma hd_no_ws : forall x, digit x \/ In x (34%N :: bs "-ntf[{") -> ~ is_ws x.
Proof. intros x H. unfold is_ws, digit in *. cbn in *. intuition (subst; try discriminate; lia). Qed.
Lemma jval_no_ws : forall strict v s r, jval f64_parse strict utf8 v s -> no_ws (s ++ r).
Proof. intros strict v s r H. destruct (jval_hd H) as (x & t & -> & Hx). cbn. now apply hd_no_ws. Qed.

Lemma r_array : forall (p : parser N (json F)) c l, c <> 91%N -> rej (array utf8 p) (c :: l) false.
Proof. intros p c l H. unfold array. destruct utf8; apply r_surround1; [apply r_and1|apply r_skip_right1]; now apply r_elm_ref. Qed.
Lemma r_object : forall (p : parser N (json F)) c l, c <> 123%N -> rej (object utf8 p) (c :: l) false.
Proof. intros p c l H. unfold object. apply r_map, r_surround1, r_and1. now apply r_elm_ref. Qed.
Lemma r_value : forall n c l, c = 93%N \/ c = 125%N -> rej (value (S n)) (c :: l) false.
Proof.
  intros n c l H. cbn [value_fuel]. unfold value_step. apply r_skip_right1.
  repeat apply r_or; apply r_map; try (apply r_lit; intros ->; destruct H; discriminate).
  - apply r_number; unfold digit; lia.
  - apply r_string. lia.
  - apply r_array. lia.
  - apply r_object. lia.
Qed.
Lemma r_member : forall (p : parser N (json F)) c l, c <> 34%N -> rej (member utf8 p) (c :: l) false.
Proof. intros p c l H. unfold member. apply r_and1, r_skip_right1, r_skip_right1, r_skip_right1, r_string. exact H. Qed.

(** A separator parser. *)
Definition good_sep {B} (sep : parser N B) : Prop :=
  (forall a rest, ws a -> no_ws rest -> exists w, acc sep (bs "," ++ a) rest w) /\
  (forall c l, c = 93%N \/ c = 125%N -> rej sep (c :: l) false).
Lemma good_sep1 : good_sep (p_and (p_and space (p_elm_ref (chr ","))) space).
Proof.
  split.
  - intros a rest Ha Hr. eexists. eapply a_and; [|now apply a_space]. change (bs ",") with ([] ++ [chr ","]).
    eapply a_and; [apply a_space; [constructor|cbn; unfold is_ws; cbn; intuition discriminate]|apply a_elm_ref].
  - intros c l H. apply r_and1. change (c :: l) with ([] ++ c :: l).
    eapply r_and2; [apply a_space; [constructor|cbn; unfold is_ws; cbn; intuition congruence]|apply r_elm_ref]. intros ->. destruct H; discriminate.
Qed.
Lemma good_sep2 : good_sep (p_skip_right (p_skip_left space (p_elm_ref (chr ","))) space).
Proof.
  split.
  - intros a rest Ha Hr. eexists. eapply a_skip_right; [|now apply a_space]. change (bs ",") with ([] ++ [chr ","]).
    eapply a_skip_left; [apply a_space; [constructor|cbn; unfold is_ws; cbn; intuition discriminate]|apply a_elm_ref].
  - intros c l H. apply r_skip_right1. change (c :: l) with ([] ++ c :: l).
    eapply r_skip_left2; [apply a_space; [constructor|cbn; unfold is_ws; cbn; intuition congruence]|apply r_elm_ref]. intros ->. destruct H; discriminate.
Qed.

Definition c_val (v : json F) (s : list N) : Prop := forall n w rest, length s < n -> ws w -> stop rest -> acc (value n) (s ++ w) rest v.
Definition c_elems (vs : list (json F)) (s : list N) : Prop := exists v vs' a s1 t, vs = v :: vs' /\ s = a ++ s1 ++ t /\ ws a /\
  (exists x r, s1 = x :: r /\ ~ is_ws x) /\
  forall n B (sep : parser N B) rest, length s < n -> good_sep sep -> stop rest ->
    acc (value n) s1 (t ++ rest) v /\ schain (value n) sep t rest vs'.
Definition c_members (ms : list (list N * json F)) (s : list N) : Prop := exists m ms' a s1 t, ms = m :: ms' /\ s = a ++ s1 ++ t /\ ws a /\
  (exists x r, s1 = x :: r /\ ~ is_ws x) /\
  forall n B (sep : parser N B) rest, length s < n -> good_sep sep -> stop rest ->
    acc (member utf8 (value n)) s1 (t ++ rest) m /\ schain (member utf8 (value n)) sep t rest ms'.

(** One member. *)
Lemma a_member : forall n k v sk b c s d rest, g_string false utf8 k sk -> ws b -> ws c -> jval0 v s -> ws d -> stop rest ->
  acc (value n) (s ++ d) rest v -> acc (member utf8 (value n)) (sk ++ b ++ bs ":" ++ c ++ s ++ d) rest (k, v).
Proof.
  intros n k v sk b c s d rest Hk Hb Hc Hv Hd Hr Ha. unfold member.
  replace (sk ++ b ++ bs ":" ++ c ++ s ++ d) with ((((sk ++ b) ++ bs ":") ++ c) ++ (s ++ d)) by now rewrite <- !app_assoc.
  eapply a_and; [|apply a_lazy; exact Ha].
  eapply a_skip_right; [eapply a_skip_right; [eapply a_skip_right; [now apply a_string|]|apply a_elm_ref]|].
  - apply a_space; [exact Hb|]. cbn. unfold is_ws. cbn. intuition discriminate.
  - apply a_space; [exact Hc|]. rewrite <- app_assoc. eapply jval_no_ws. exact Hv.
Qed.
(** One step of a separated list. *)
Lemma list_step : forall A B (p : parser N A) (sep : parser N B) a s1 t rest v vs,
  good_sep sep -> ws a -> (exists x r, s1 = x :: r /\ ~ is_ws x) -> acc p s1 (t ++ rest) v -> schain p sep t rest vs ->
  schain p sep (bs "," ++ a ++ s1 ++ t) rest (v :: vs).
Proof.
  intros A B p sep a s1 t rest v vs [Hs _] Ha (x & r & -> & Hx) H1 H2. rewrite app_assoc.
  destruct (Hs a ((x :: r) ++ t ++ rest) Ha Hx) as [w Hw]. econstructor; [exact Hw|exact H1|discriminate|exact H2].
Qed.

(** The brackets. *)
Lemma a_open1 : forall c a rest, ws a -> no_ws rest -> exists w, acc (p_and (p_elm_ref c) space) ([c] ++ a) rest w.
Proof. intros c a rest Ha Hr. eexists. eapply a_and; [apply a_elm_ref|now apply a_space]. Qed.
Lemma a_open2 : forall c a rest, ws a -> no_ws rest -> exists w, acc (p_skip_right (p_elm_ref c) space) ([c] ++ a) rest w.
Proof. intros c a rest Ha Hr. eexists. eapply a_skip_right; [apply a_elm_ref|now apply a_space]. Qed.
Lemma a_close1 : forall c rest, ~ is_ws c -> exists w, acc (p_and space (p_elm_ref c)) [c] rest w.
Proof. intros c rest Hc. eexists. change [c] with ([] ++ [c]). eapply a_and; [apply a_space; [constructor|exact Hc]|apply a_elm_ref]. Qed.
Lemma a_close2 : forall c rest, ~ is_ws c -> exists w, acc (p_skip_left space (p_elm_ref c)) [c] rest w.
Proof. intros c rest Hc. eexists. change [c] with ([] ++ [c]). eapply a_skip_left; [apply a_space; [constructor|exact Hc]|apply a_elm_ref]. Qed.
(** A bracketed list: the elements [v :: vs] spelled by [a ++ s1 ++ t], then what may trail, then the bracket [c]. *)
Lemma a_list : forall A B C D (p : parser N A) (sep : parser N B) (op : parser N C) (cl : parser N D) o c a s1 t tr rest v vs,
  good_sep sep -> (c = 93%N \/ c = 125%N) -> ~ is_ws c ->
  (forall a rest, ws a -> no_ws rest -> exists w, acc op ([o] ++ a) rest w) -> (forall rest, exists w, acc cl [c] rest w) ->
  (forall l, rej p (c :: l) false) -> ws a -> (exists x r, s1 = x :: r /\ ~ is_ws x) -> trailing false tr ->
  acc p s1 (t ++ tr ++ c :: rest) v -> schain p sep t (tr ++ c :: rest) vs ->
  acc (p_surround op (p_many0_sep p sep) cl) ([o] ++ (a ++ s1 ++ t) ++ tr ++ [c]) rest (v :: vs).
Proof.
  intros A B C D p sep op cl o c a s1 t tr rest v vs Hs Hc Hcw Ho Hcl Hr Ha (x & r & E1 & Hx) Ht H1 H2.
  replace ([o] ++ (a ++ s1 ++ t) ++ tr ++ [c]) with (([o] ++ a) ++ (s1 ++ t ++ tr) ++ [c]) by now rewrite <- !app_assoc.
  destruct (Hcl rest) as [wc Hwc]. destruct (Ho a ((s1 ++ t ++ tr) ++ [c] ++ rest) Ha) as [wo Hwo].
  { rewrite E1. exact Hx. }
  eapply a_surround; [exact Hwo| |exact Hwc].
  destruct Ht as [->|(_ & w & -> & Hw)].
  - rewrite app_nil_r. eapply a_repeat_sep with (c := false); [exact H1|exact H2|apply Hs, Hc|lia].
  - destruct Hs as [Hs1 Hs2]. destruct (Hs1 w (c :: rest) Hw Hcw) as [wd Hwd].
    eapply a_repeat_sep_dangling with (c := false); [| |exact Hwd|apply Hr|lia].
    + exact H1.
    + exact H2.
Qed.
Lemma nws_bracket : forall c, c = 93%N \/ c = 125%N -> ~ is_ws c.
Proof. intros c [->| ->]; unfold is_ws; cbn; intuition discriminate. Qed.
Lemma a_array : forall n a s1 t tr rest v vs, ws a -> (exists x r, s1 = x :: r /\ ~ is_ws x) -> trailing false tr ->
  (forall B (sep : parser N B) rest, good_sep sep -> stop rest -> acc (value (S n)) s1 (t ++ rest) v /\ schain (value (S n)) sep t rest vs) ->
  acc (array utf8 (value (S n))) (bs "[" ++ (a ++ s1 ++ t) ++ tr ++ bs "]") rest (v :: vs).
Proof.
  intros n a s1 t tr rest v vs Ha Hx Ht H.
  assert (Hst : stop (tr ++ 93%N :: rest)) by (destruct Ht as [->|(_ & w & -> & _)]; cbn; tauto).
  pose proof (fun l => @r_value n 93%N l (or_introl eq_refl)) as Hrv. unfold array. destruct utf8.
  - destruct (H _ _ _ good_sep1 Hst) as [H1 H2]. eapply a_list; try eassumption.
    + apply good_sep1.
    + now left.
    + apply nws_bracket. now left.
    + intros. now apply a_open1.
    + intros. apply a_close1, nws_bracket. now left.
  - destruct (H _ _ _ good_sep2 Hst) as [H1 H2]. eapply a_list; try eassumption.
    + apply good_sep2.
    + now left.
    + apply nws_bracket. now left.
    + intros. now apply a_open2.
    + intros. apply a_close2, nws_bracket. now left.
Qed.
Lemma a_array0 : forall n w rest, ws w -> acc (array utf8 (value (S n))) (bs "[" ++ w ++ bs "]") rest [].
Proof.
  intros n w rest Hw. assert (Hn : ~ is_ws 93%N) by (apply nws_bracket; now left).
  replace (bs "[" ++ w ++ bs "]") with (([91%N] ++ w) ++ [] ++ [93%N]) by now rewrite <- app_assoc.
  pose proof (fun l => @r_value n 93%N l (or_introl eq_refl)) as Hrv. unfold array. destruct utf8.
  - destruct (@a_open1 91%N w (93%N :: rest) Hw Hn) as [wo Ho]. destruct (@a_close1 93%N rest Hn) as [wc Hc].
    eapply a_surround; [exact Ho| |exact Hc]. eapply a_repeat_sep_none. apply r_lazy, Hrv.
  - destruct (@a_open2 91%N w (93%N :: rest) Hw Hn) as [wo Ho]. destruct (@a_close2 93%N rest Hn) as [wc Hc].
    eapply a_surround; [exact Ho| |exact Hc]. eapply a_repeat_sep_none. apply r_lazy, Hrv.
Qed.
Lemma a_object : forall n a s1 t tr rest m ms, ws a -> (exists x r, s1 = x :: r /\ ~ is_ws x) -> trailing false tr ->
  (forall B (sep : parser N B) rest, good_sep sep -> stop rest ->
     acc (member utf8 (value n)) s1 (t ++ rest) m /\ schain (member utf8 (value n)) sep t rest ms) ->
  acc (object utf8 (value n)) (bs "{" ++ (a ++ s1 ++ t) ++ tr ++ bs "}") rest (hm_collect (m :: ms)).
Proof.
  intros n a s1 t tr rest v vs Ha Hx Ht H.
  assert (Hst : stop (tr ++ 125%N :: rest)) by (destruct Ht as [->|(_ & w & -> & _)]; cbn; tauto).
  unfold object. eapply a_map_eq; [|reflexivity].
  destruct (H _ _ _ good_sep1 Hst) as [H1 H2]. eapply a_list; try eassumption.
  - apply good_sep1.
  - now right.
  - apply nws_bracket. now right.
  - intros. now apply a_open1.
  - intros. apply a_close1, nws_bracket. now right.
  - intros l. apply r_member. discriminate.
Qed.
Lemma a_object0 : forall n w rest, ws w -> acc (object utf8 (value n)) (bs "{" ++ w ++ bs "}") rest [].
Proof.
  intros n w rest Hw. assert (Hn : ~ is_ws 125%N) by (apply nws_bracket; now right).
  replace (bs "{" ++ w ++ bs "}") with (([123%N] ++ w) ++ [] ++ [125%N]) by now rewrite <- app_assoc.
  unfold object. eapply a_map_eq with (v := []); [|reflexivity].
  destruct (@a_open1 123%N w (125%N :: rest) Hw Hn) as [wo Ho]. destruct (@a_close1 125%N rest Hn) as [wc Hc].
  eapply a_surround; [exact Ho| |exact Hc]. eapply a_repeat_sep_none. apply r_member. discriminate.
Qed.
Ltac rejs := repeat apply r_or; apply r_map; first
  [apply r_lit; discriminate|apply r_number; [discriminate|unfold digit; cbn; lia]|apply r_string; discriminate|apply r_array; discriminate|apply r_object; discriminate].
Lemma complete3 :
  (forall v s, jval0 v s -> c_val v s) /\ (forall vs s, jelems0 vs s -> c_elems vs s) /\ (forall ms s, jmembers0 ms s -> c_members ms s).
Proof.
  apply (@jval_ind3 F f64_parse false utf8 (fun v s _ => c_val v s) (fun vs s _ => c_elems vs s) (fun ms s _ => c_members ms s)).
  - intros [|n] w rest L Hw Hr; [lia|]. cbn [value_fuel]. unfold value_step. eapply a_skip_right; [|now apply a_space, stop_no_ws].
    do 6 apply a_or1. eapply a_map_eq; [apply a_lit|reflexivity].
  - intros [|n] w rest L Hw Hr; [lia|]. cbn [value_fuel]. unfold value_step. eapply a_skip_right; [|now apply a_space, stop_no_ws].
    do 5 apply a_or1. apply a_or2; [rejs|]. eapply a_map_eq; [apply a_lit|reflexivity].
  - intros [|n] w rest L Hw Hr; [lia|]. cbn [value_fuel]. unfold value_step. eapply a_skip_right; [|now apply a_space, stop_no_ws].
    do 4 apply a_or1. apply a_or2; [rejs|]. eapply a_map_eq; [apply a_lit|reflexivity].
  - intros x s Hg Hx [|n] w rest L Hw Hr; [lia|]. cbn [value_fuel]. unfold value_step. eapply a_skip_right; [|now apply a_space, stop_no_ws].
    do 3 apply a_or1. apply a_or2.
    + destruct (number_hd Hg) as (y & t & -> & Hy). unfold digit in Hy. repeat apply r_or; apply r_map, r_lit; cbn; lia.
    + eapply a_map_eq; [|reflexivity]. apply a_number; [exact Hg|exact Hx|]. now apply stop_after.
  - intros v s Hg [|n] w rest L Hw Hr; [lia|]. cbn [value_fuel]. unfold value_step. eapply a_skip_right; [|now apply a_space, stop_no_ws].
    do 2 apply a_or1. apply a_or2.
    + destruct (string_ne Hg) as (t & ->). rejs.
    + eapply a_map_eq; [|reflexivity]. now apply a_string.
  - intros w' Hw' [|[|n]] w rest L Hw Hr; [lia|cbn in L; lia|]. cbn [value_fuel]. unfold value_step at 1. eapply a_skip_right; [|now apply a_space, stop_no_ws].
    apply a_or1. apply a_or2; [rejs|]. eapply a_map_eq; [|reflexivity]. now apply a_array0.
  - intros vs s t He IH Ht [|[|n]] w rest L Hw Hr; [lia|cbn in L; lia|]. cbn [value_fuel]. unfold value_step at 1. eapply a_skip_right; [|now apply a_space, stop_no_ws].
    apply a_or1. apply a_or2; [rejs|]. eapply a_map_eq; [|reflexivity].
    destruct IH as (v & vs' & a & s1 & u & -> & -> & Ha & Hx & IH).
    apply (@a_array n); try assumption. intros B sep rest' Hs Hr'. apply IH; try assumption.
    rewrite !app_length in *. cbn [List.length bs] in L. unfold bs in L. cbn in L. lia.
  - intros w' Hw' [|n] w rest L Hw Hr; [lia|]. cbn [value_fuel]. unfold value_step at 1. eapply a_skip_right; [|now apply a_space, stop_no_ws].
    apply a_or2; [rejs|]. eapply a_map_eq; [|reflexivity]. now apply a_object0.
  - intros ms s t He IH Ht [|n] w rest L Hw Hr; [lia|]. cbn [value_fuel]. unfold value_step at 1. eapply a_skip_right; [|now apply a_space, stop_no_ws].
    apply a_or2; [rejs|]. eapply a_map_eq; [|reflexivity].
    destruct IH as (m & ms' & a & s1 & u & -> & -> & Ha & Hx & IH).
    apply a_object; try assumption. intros B sep rest' Hs Hr'. apply IH; try assumption.
    rewrite !app_length in *. cbn in L. lia.
  - intros v a s b Ha Hv IH Hb. exists v, [], a, (s ++ b), []. repeat split.
    + now rewrite app_nil_r.
    + exact Ha.
    + destruct (jval_hd Hv) as (x & t & -> & Hx). exists x, (t ++ b). split; [reflexivity|now apply hd_no_ws].
    + cbn [app]. apply IH; [|exact Hb|assumption]. rewrite !app_length in *. lia.
    + constructor.
  - intros v a s b vs t Ha Hv IH Hb He (v2 & vs2 & a2 & s2 & t2 & -> & -> & Ha2 & Hx2 & IH2).
    exists v, (v2 :: vs2), a, (s ++ b), (bs "," ++ a2 ++ s2 ++ t2).
    split; [reflexivity|]. split; [now rewrite <- !app_assoc|]. split; [exact Ha|]. split.
    { destruct (jval_hd Hv) as (x & t & -> & Hx). exists x, (t ++ b). split; [reflexivity|now apply hd_no_ws]. }
    intros n B sep rest L Hs Hr. rewrite !app_length in L. split.
    + rewrite <- app_assoc. apply IH; [lia|exact Hb|cbn; tauto].
    + destruct (IH2 n B sep rest) as [K1 K2]; [rewrite !app_length; lia|exact Hs|exact Hr|]. now apply list_step.
  - intros k v a sk b c s d Ha Hk Hb Hc Hv IH Hd. exists (k, v), [], a, (sk ++ b ++ bs ":" ++ c ++ s ++ d), []. repeat split.
    + now rewrite app_nil_r.
    + exact Ha.
    + destruct (string_ne Hk) as (t & ->). exists 34%N, (t ++ b ++ bs ":" ++ c ++ s ++ d). split; [reflexivity|].
      apply hd_no_ws. right. now left.
    + cbn [app]. apply a_member; try assumption. apply IH; try assumption. rewrite !app_length in *. lia.
    + constructor.
  - intros k v a sk b c s d ms t Ha Hk Hb Hc Hv IH Hd Hm (m2 & ms2 & a2 & s2 & t2 & -> & -> & Ha2 & Hx2 & IH2).
    exists (k, v), (m2 :: ms2), a, (sk ++ b ++ bs ":" ++ c ++ s ++ d), (bs "," ++ a2 ++ s2 ++ t2).
    split; [reflexivity|]. split; [now rewrite <- !app_assoc|]. split; [exact Ha|]. split.
    { destruct (string_ne Hk) as (t & ->). exists 34%N, (t ++ b ++ bs ":" ++ c ++ s ++ d). split; [reflexivity|].
      apply hd_no_ws. right. now left. }
    intros n B sep rest L Hs Hr. rewrite !app_length in L. split.
    + apply a_member; try assumption; [cbn; tauto|]. apply IH; [lia|exact Hd|cbn; tauto].
    + destruct (IH2 n B sep rest) as [K1 K2]; [rewrite !app_length; lia|exact Hs|exact Hr|]. now apply list_step.
Qed.
Lemma json_complete : forall v s, jdoc f64_parse false utf8 v s -> json_p f64_parse utf8 s 0 = Success v (length s).
Proof.
  intros v s (a & t & b & -> & Ha & Hv & Hb). unfold json_p.
  assert (A : acc (json_fuel f64_parse utf8 (S (length (a ++ t ++ b)))) (a ++ t ++ b) [] v).
  { unfold json_fuel. rewrite <- (app_nil_r (a ++ t ++ b)) at 2. eapply a_skip_right; [|apply a_end].
    eapply a_skip_left; [apply a_space; [exact Ha|]|].
    - rewrite <- app_assoc. eapply jval_no_ws. exact Hv.
    - apply (proj1 complete3); [exact Hv| |exact Hb|exact I]. rewrite !app_length. lia. }
  specialize (A []). cbn [app List.length] in A. now rewrite app_nil_r in A.
Qed.
End Values.
