(** The JSON examples with the nesting and the number of their calls: parser/examples/json_byte.rs and json_char.rs as in Json.v, over the
    combinators of Measure.v. *)
From Verif Require Import Base Core Comb Closure RepFacts LitFacts Hoare Text Agree Json JsonSpec JsonFacts Measure.
Set Implicit Arguments.
Local Open Scope string_scope.
Local Open Scope nat_scope.
Local Open Scope list_scope.

Section Grammar.
Variable F : Type.
Variable f64_parse : list N -> F + unit.
Variable utf8 : bool.

(** extension/parsers/element_parsers.rs 17-21, 130-136, 92-103; lib.rs 837: closures of the element parsers *)
Definition m_elm_ref (c : N) : mparser N := m_leaf (p_elm_ref c).
Definition m_elm_of (l : list N) : mparser N := m_map (m_leaf (p_elm_ref_of (set_contains l))) (fun x => x).
Definition m_digit_ref : mparser N := m_leaf p_elm_digit_ref.
Definition m_digit_1_9_ref : mparser N := m_filter_not m_digit_ref is_ascii_digit_zero.
Definition m_hex_digit : mparser N := m_map (m_leaf (p_elm_pred_ref is_ascii_hex_digit)) (fun x => x).

(** json_byte.rs 16-18; json_char.rs 17-19. *)
Definition mj_space : mparser unit := m_discard (m_many0 (m_elm_of [32; 9; 13; 10]%N)).
(** json_byte.rs 20-26; json_char.rs 21-27. *)
Definition mj_integer : mparser N := m_or (m_skip_right m_digit_1_9_ref (m_many0 m_digit_ref)) (m_elm_ref (chr "0")).
Definition mj_frac : mparser (N * list N) := m_and (m_elm_ref (chr ".")) (m_many1 m_digit_ref).
Definition mj_expo : mparser (N * option N * list N) :=
  m_and (m_and (m_elm_of (bs "eE")) (m_opt (m_elm_of (bs "+-")))) (m_many1 m_digit_ref).
Definition mj_number : mparser F :=
  m_map_res (m_id (m_collect (m_and (m_and (m_and (m_opt (m_elm_ref (chr "-"))) mj_integer) (m_opt mj_frac)) (m_opt mj_expo)))) f64_parse.
(** json_byte.rs 29-36; json_char.rs 30-37. *)
Definition mj_special_char : mparser N :=
  m_or (m_or (m_or (m_or (m_or (m_or (m_or (m_elm_ref 92) (m_elm_ref 47)) (m_elm_ref 34))
    (m_map (m_elm_ref (chr "b")) (fun _ => 8%N)))
    (m_map (m_elm_ref (chr "f")) (fun _ => 12%N)))
    (m_map (m_elm_ref (chr "n")) (fun _ => 10%N)))
    (m_map (m_elm_ref (chr "r")) (fun _ => 13%N)))
    (m_map (m_elm_ref (chr "t")) (fun _ => 9%N)).
(** json_byte.rs 37-41; json_char.rs 38-42. *)
Definition mj_escape : mparser N := m_skip_left (m_elm_ref 92) mj_special_char.
Definition mj_char_string : mparser (list N) :=
  m_map_res (m_many1 (m_map (m_or (m_leaf (p_none_ref_of (set_contains [92; 34]%N))) mj_escape) (fun x => x))) (run_to_string utf8).
(** json_byte.rs 42-51; json_char.rs 43-52. *)
Definition mj_utf16_char : mparser N :=
  m_skip_left (m_leaf (lit utf8 [92; 117]%N)) (m_map_res (m_map_res (m_count m_hex_digit 4) (run_to_string utf8)) (parse_hex 65535)).
Definition mj_utf16_string : mparser (list N) := m_map (m_many1 mj_utf16_char) (fun us => chars_to_string utf8 (decode_utf16 us)).
(** json_byte.rs 52-54; json_char.rs 53-55. *)
Definition mj_string : mparser (list N) :=
  m_map (m_surround (m_elm_ref 34) (m_many0 (m_or mj_char_string mj_utf16_string)) (m_elm_ref 34)) (@List.concat N).
(** json_byte.rs 56-66; json_char.rs 57-67.  [if]: the two examples write the same with different operators; the closures are as many. *)
Definition mj_array (value : mparser (json F)) : mparser (list (json F)) :=
  if utf8 then
    m_surround (m_and (m_elm_ref (chr "[")) mj_space)
      (m_many0_sep (m_lazy value) (m_and (m_and mj_space (m_elm_ref (chr ","))) mj_space))
      (m_and mj_space (m_elm_ref (chr "]")))
  else
    m_surround (m_skip_right (m_elm_ref (chr "[")) mj_space)
      (m_many0_sep (m_lazy value) (m_skip_right (m_skip_left mj_space (m_elm_ref (chr ","))) mj_space))
      (m_skip_left mj_space (m_elm_ref (chr "]"))).
Definition mj_member (value : mparser (json F)) : mparser (list N * json F) :=
  m_and (m_skip_right (m_skip_right (m_skip_right mj_string mj_space) (m_elm_ref (chr ":"))) mj_space) (m_lazy value).
Definition mj_object (value : mparser (json F)) : mparser (list (list N * json F)) :=
  m_map
    (m_surround (m_and (m_elm_ref (chr "{")) mj_space)
      (m_many0_sep (mj_member value) (m_and (m_and mj_space (m_elm_ref (chr ","))) mj_space))
      (m_and mj_space (m_elm_ref (chr "}"))))
    (@hm_collect (json F)).
(** json_byte.rs 68-77; json_char.rs 69-78. *)
Definition mj_value_step (value : mparser (json F)) : mparser (json F) :=
  m_skip_right
    (m_or (m_or (m_or (m_or (m_or (m_or
      (m_map (m_leaf (lit utf8 (bs "null"))) (fun _ => JNull F))
      (m_map (m_leaf (lit utf8 (bs "true"))) (fun _ => JBool F true)))
      (m_map (m_leaf (lit utf8 (bs "false"))) (fun _ => JBool F false)))
      (m_map mj_number (@JNum F)))
      (m_map mj_string (JStr F)))
      (m_map (mj_array value) (@JArray F)))
      (m_map (mj_object value) (@JObject F)))
    mj_space.
Fixpoint mj_value (fuel : nat) : mparser (json F) :=
  match fuel with
  | 0 => m_leaf p_diverge
  | S fuel' => mj_value_step (mj_value fuel')
  end.
(** json_byte.rs 79-81; json_char.rs 80-82. *)
Definition mj_json : mparser (json F) := fun inp off => m_skip_right (m_skip_left mj_space (mj_value (S (length inp)))) (m_leaf p_end) inp off.

(** ** The outcomes are those of Json.v *)
Ltac er := repeat first
  [ assumption | apply er_leaf | match goal with |- erases (m_id _) _ => apply er_id end | apply er_map | apply er_map_res | apply er_collect | apply er_discard | apply er_filter_not | apply er_lazy
  | apply er_attempt | apply er_and | apply er_skip_left | apply er_skip_right | apply er_surround | apply er_or | apply er_opt | apply er_many0 | apply er_many1
  | apply er_count | apply er_many0_sep ].
Lemma er_space : erases mj_space space.
Proof. unfold mj_space, space, p_elm_of, p_elm_of_set, m_elm_of. er. Qed.
Lemma er_number : erases mj_number (number f64_parse).
Proof. unfold mj_number, number, mj_integer, integer, mj_frac, frac, mj_expo, expo, p_elm_of, p_elm_of_set, m_elm_of, p_elm_digit_1_9_ref, m_digit_1_9_ref. er. Qed.
Lemma er_string : erases mj_string (string_p utf8).
Proof.
  unfold mj_string, string_p, mj_char_string, char_string, mj_utf16_string, utf16_string, mj_utf16_char, utf16_char, mj_escape, escape_sequence, mj_special_char, special_char,
    m_hex_digit, p_elm_hex_digit, p_elm_pred. er.
Qed.
Lemma er_array : forall g p, erases g p -> erases (mj_array g) (array utf8 p).
Proof. intros g p H. pose proof er_space as S0. unfold mj_array, array. destruct utf8; er. Qed.
Lemma er_member : forall g p, erases g p -> erases (mj_member g) (member utf8 p).
Proof. intros g p H. pose proof er_space as S0. pose proof er_string as S1. unfold mj_member, member. er. Qed.
Lemma er_object : forall g p, erases g p -> erases (mj_object g) (object utf8 p).
Proof. intros g p H. pose proof er_space as S0. pose proof (er_member H) as S1. unfold mj_object, object. er. Qed.
Lemma er_value_step : forall g p, erases g p -> erases (mj_value_step g) (value_step f64_parse utf8 p).
Proof.
  intros g p H. pose proof er_space. pose proof er_string. pose proof er_number. pose proof (er_array H). pose proof (er_object H). unfold mj_value_step, value_step. er.
Qed.
Lemma er_value : forall n, erases (mj_value n) (value_fuel f64_parse utf8 n).
Proof. induction n as [|n IH]; [apply er_leaf|]. now apply er_value_step. Qed.
Lemma er_json : erases mj_json (json_p f64_parse utf8).
Proof.
  intros inp off. unfold mj_json, json_p, json_fuel. revert off.
  cut (erases (m_skip_right (m_skip_left mj_space (mj_value (S (length inp)))) (m_leaf p_end)) (p_skip_right (p_skip_left space (value_fuel f64_parse utf8 (S (length inp)))) p_end)); [intros K off; apply K|].
  pose proof er_space. pose proof (er_value (S (length inp))). er.
Qed.
End Grammar.

(** ** How deep a text nests *)
(** Outside of strings, inside a string, after a backslash inside a string. *)
Inductive mode := Out | Inside | Esc.
Definition opening (c : N) : bool := (c =? chr "[")%N || (c =? chr "{")%N.
Definition closing (c : N) : bool := (c =? chr "]")%N || (c =? chr "}")%N.
(** The largest number of brackets open at one time, up to the one that closes more than [s] opened; [cur] are open already.  Brackets inside
    strings do not count. *)
Fixpoint nest (md : mode) (cur : nat) (s : list N) : nat :=
  match s with
  | [] => cur
  | c :: t =>
      match md with
      | Inside => nest (if (c =? 34)%N then Out else if (c =? 92)%N then Esc else Inside) cur t
      | Esc => nest Inside cur t
      | Out =>
          if (c =? 34)%N then nest Inside cur t
          else if opening c then nest Out (S cur) t
          else if closing c then match cur with 0 => 0 | S k => Nat.max cur (nest Out k t) end
          else nest Out cur t
      end
  end.
Definition nesting (s : list N) : nat := nest Out 0 s.

Lemma nest_ge : forall s md cur, cur <= nest md cur s.
Proof.
  induction s as [|c t IH]; intros md cur; cbn [nest]; [lia|]. destruct md; auto.
  destruct (c =? 34)%N; [auto|]. destruct (opening c); [specialize (IH Out (S cur)); lia|]. destruct (closing c); [destruct cur; lia|auto].
Qed.
Lemma nest_S : forall s md cur, S (nest md cur s) <= nest md (S cur) s.
Proof.
  induction s as [|c t IH]; intros md cur; cbn [nest]; [lia|]. destruct md; auto.
  destruct (c =? 34)%N; [auto|]. destruct (opening c); [auto|]. destruct (closing c); [|auto].
  destruct cur as [|k]; [pose proof (nest_ge t Out 0); lia|]. specialize (IH Out k). lia.
Qed.
Definition neutral (s : list N) : Prop := forall k r, nest Out k r <= nest Out k (s ++ r).
Definition opens (s : list N) : Prop := forall k r, nest Out (S k) r <= nest Out k (s ++ r).
Definition plain_char (c : N) : Prop := c <> 34%N /\ opening c = false /\ closing c = false.
Lemma neutral_nil : neutral [].
Proof. intros k r. apply le_n. Qed.
Lemma neutral_app : forall s t, neutral s -> neutral t -> neutral (s ++ t).
Proof. intros s t Hs Ht k r. rewrite <- app_assoc. etransitivity; [apply Ht|apply Hs]. Qed.
Lemma neutral_plain : forall s, Forall plain_char s -> neutral s.
Proof.
  intros s H. induction H as [|c t (H1 & H2 & H3) _ IH]; [apply neutral_nil|]. intros k r. cbn [app nest].
  apply N.eqb_neq in H1. rewrite H1, H2, H3. apply IH.
Qed.
Lemma plain_ws : forall s, ws s -> Forall plain_char s.
Proof. intros s H. eapply Forall_impl; [|exact H]. cbn. intros c H0. repeat (destruct H0 as [<-|H0]; [now split|]). contradiction. Qed.
Lemma neutral_ws : forall s, ws s -> neutral s.
Proof. intros s H. now apply neutral_plain, plain_ws. Qed.
Lemma plain_digit : forall c, digit c -> plain_char c.
Proof. intros c H. unfold digit in H. unfold plain_char, opening, closing. cbn [chr]. repeat split; [lia| |]; apply Bool.orb_false_iff; split; apply N.eqb_neq; cbn; lia. Qed.
Lemma plain_digits : forall s, Forall digit s -> Forall plain_char s.
Proof. intros s H. eapply Forall_impl; [|exact H]. apply plain_digit. Qed.
Lemma plain_number : forall s, g_number s -> Forall plain_char s.
Proof.
  assert (M : forall P s, maybe P s -> (forall t, P t -> Forall plain_char t) -> Forall plain_char s) by (intros P s [->|H] K; [constructor|now apply K]).
  assert (C : forall c, In c (bs ".eE+-0") -> plain_char c) by (intros c H; cbn in H; repeat (destruct H as [<-|H]; [now split|]); contradiction).
  assert (C1 : forall c, In c (bs ".eE+-0") -> Forall plain_char [c]) by (intros c H; repeat constructor; apply C, H).
  intros s (m & i & f & e & -> & Hm & Hi & Hf & He). apply Forall_app; split; [|apply Forall_app; split; [|apply Forall_app; split]].
  - eapply M; [exact Hm|]. intros t <-. apply C1. cbn. tauto.
  - destruct Hi as [->|(x & t & -> & Hx & Ht)]; [apply C1; cbn; tauto|]. constructor; [apply plain_digit; unfold digit; lia|now apply plain_digits].
  - eapply M; [exact Hf|]. intros t (u & -> & Hu & _). apply Forall_app. split; [apply C1; cbn; tauto|now apply plain_digits].
  - eapply M; [exact He|]. intros t (x & sg & u & -> & Hx & Hs & Hu & _). repeat (apply Forall_app; split); [destruct Hx as [->| ->]; apply C1; cbn; tauto| |now apply plain_digits].
    eapply M; [exact Hs|]. intros v [->| ->]; apply C1; cbn; tauto.
Qed.
Lemma nest_item : forall i k r, item_ok false i -> nest Inside k (item_text i ++ r) = nest Inside k r.
Proof.
  intros [x|c|h] k r H; cbn [item_ok item_text] in *.
  - destruct H as (H1 & H2 & _). cbn [app nest]. apply N.eqb_neq in H1, H2. now rewrite H1, H2.
  - reflexivity.
  - destruct H as [H _]. cbn [app nest]. change ((92 =? 34)%N) with false. change ((92 =? 92)%N) with true. cbv iota.
    induction H as [|c t Hc _ IH]; [reflexivity|]. cbn [app nest]. unfold hexdig in Hc.
    assert (E : (c =? 34)%N = false /\ (c =? 92)%N = false) by (split; apply N.eqb_neq; lia). destruct E as [-> ->]. exact IH.
Qed.
Lemma nest_items : forall is k r, Forall (item_ok false) is -> nest Inside k (flat_map item_text is ++ r) = nest Inside k r.
Proof. intros is k r H. induction H as [|i is Hi _ IH]; [reflexivity|]. cbn [flat_map]. rewrite <- app_assoc, nest_item by exact Hi. exact IH. Qed.
Lemma neutral_string : forall utf8 v s, g_string false utf8 v s -> neutral s.
Proof.
  intros utf8 v s (is & H & -> & _) k r. rewrite <- !app_assoc. cbn [app nest]. change ((34 =? 34)%N) with true. cbv iota. rewrite nest_items by exact H. cbn [nest app]. apply le_n.
Qed.
Lemma neutral_group : forall s, neutral s -> neutral (bs "[" ++ s ++ bs "]") /\ neutral (bs "{" ++ s ++ bs "}").
Proof.
  intros s H. split; intros k r; rewrite <- !app_assoc.
  - change (nest Out k (bs "[" ++ s ++ bs "]" ++ r)) with (nest Out (S k) (s ++ bs "]" ++ r)). specialize (H (S k) (bs "]" ++ r)).
    change (nest Out (S k) (bs "]" ++ r)) with (Nat.max (S k) (nest Out k r)) in H. lia.
  - change (nest Out k (bs "{" ++ s ++ bs "}" ++ r)) with (nest Out (S k) (s ++ bs "}" ++ r)). specialize (H (S k) (bs "}" ++ r)).
    change (nest Out (S k) (bs "}" ++ r)) with (Nat.max (S k) (nest Out k r)) in H. lia.
Qed.
Lemma neutral_lit : forall s, forallb (fun c => negb (c =? 34)%N && negb (opening c) && negb (closing c)) s = true -> neutral s.
Proof.
  intros s H. apply neutral_plain. apply Forall_forall. intros c Hc. rewrite forallb_forall in H. apply H in Hc. apply Bool.andb_true_iff in Hc. destruct Hc as [Hc H3].
  apply Bool.andb_true_iff in Hc. destruct Hc as [H1 H2]. apply Bool.negb_true_iff in H1, H2, H3. apply N.eqb_neq in H1. now split.
Qed.
Lemma neutral_jval : forall F (f64_parse : list N -> F + unit) utf8,
  (forall v s, jval f64_parse false utf8 v s -> neutral s) /\ (forall vs s, jelems f64_parse false utf8 vs s -> neutral s) /\ (forall ms s, jmembers f64_parse false utf8 ms s -> neutral s).
Proof.
  intros F f64_parse utf8.
  assert (T : forall t, trailing false t -> neutral t) by (intros t [->|(_ & w & -> & Hw)]; [apply neutral_nil|apply neutral_app; [now apply neutral_lit|now apply neutral_ws]]).
  assert (C : forall c, In c (bs ",:") -> neutral [c]) by (intros c H; apply neutral_lit; cbn in H; repeat (destruct H as [<-|H]; [reflexivity|]); contradiction).
  assert (G : forall s, neutral s -> neutral (bs "[" ++ s ++ bs "]")) by (intros s H; now apply neutral_group).
  assert (G' : forall s, neutral s -> neutral (bs "{" ++ s ++ bs "}")) by (intros s H; now apply neutral_group).
  apply (jval_ind3 (f64_parse := f64_parse) (strict := false) (utf8 := utf8)); intros.
  - now apply neutral_lit.
  - now apply neutral_lit.
  - now apply neutral_lit.
  - now apply neutral_plain, plain_number.
  - eapply neutral_string; eassumption.
  - apply G. now apply neutral_ws.
  - rewrite (app_assoc s). apply G. apply neutral_app; auto.
  - apply G'. now apply neutral_ws.
  - rewrite (app_assoc s). apply G'. apply neutral_app; auto.
  - repeat apply neutral_app; auto using neutral_ws.
  - repeat apply neutral_app; auto using neutral_ws. apply C. now left.
  - repeat apply neutral_app; eauto using neutral_ws, neutral_string. apply C. right. now left.
  - repeat apply neutral_app; eauto using neutral_ws, neutral_string; apply C; [right|]; now left.
Qed.

(** ** Heights *)
(** A run at a position with less than [n] elements left is at most [K] high, and 9 more for every level of the text from there on. *)
Definition high {A} (n j K : nat) (g : mparser A) : Prop := forall inp off, off <= length inp -> length inp - off < n ->
  hgt (snd (g inp off)) + 9 * j <= K + 9 * nest Out j (skipn off inp).
(** What [p] consumes at such positions. *)
Definition takes {A} (n : nat) (p : parser N A) (P : list N -> Prop) : Prop := forall inp off v k, off <= length inp -> length inp - off < n ->
  p inp off = Success v k -> off + k <= length inp /\ P (firstn k (skipn off inp)).
Lemma takes_hoare : forall A n (p : parser N A) Q (P : list N -> Prop), hoare p Q -> (forall v s, Q v s -> P s) -> takes n p P.
Proof. intros A n p Q P H K inp off v k Ho _ E. destruct (h_success H Ho E) as [E1 E2]. split; [exact E1|now apply (K v)]. Qed.
Lemma skip_split : forall (inp : list N) off k, off + k <= length inp -> skipn off inp = firstn k (skipn off inp) ++ skipn (off + k) inp.
Proof. intros inp off k H. rewrite <- (firstn_skipn k (skipn off inp)) at 1. now rewrite skipn_skipn'. Qed.
Lemma hi_flat : forall A n j k (g : mparser A), flat k g -> high n j k g.
Proof. intros A n j k g H inp off _ _. specialize (H inp off). pose proof (nest_ge (skipn off inp) Out j). lia. Qed.
Lemma hi_le : forall A n j k K (g : mparser A), high n j k g -> k <= K -> high n j K g.
Proof. intros A n j k K g H L inp off H1 H2. specialize (H inp off H1 H2). lia. Qed.
Lemma hi_deeper : forall A n K (g : mparser A), high n 0 K g -> high n 1 K g.
Proof. intros A n K g H inp off H1 H2. specialize (H inp off H1 H2). pose proof (nest_S (skipn off inp) Out 0). lia. Qed.
Lemma hi_one : forall A B (k : parser N A -> parser N B) n j K g, high n j K g -> high n j (S K) (m_one k g).
Proof. intros A B k n j K g H inp off H1 H2. specialize (H inp off H1 H2). unfold m_one. destruct (g inp off) as [o m]. cbn in *. lia. Qed.
Lemma hi_or : forall A n j K L (g h : mparser A), high n j K g -> high n j L h -> high n j (S (Nat.max K L)) (m_or g h).
Proof.
  intros A n j K L g h H1 H2 inp off E1 E2. specialize (H1 inp off E1 E2). specialize (H2 inp off E1 E2). unfold m_or. destruct (g inp off) as [o m]. cbn in H1.
  destruct o as [x k|e [|]| |]; cbn; try lia. destruct (h inp off) as [o2 m2]. cbn in *. lia.
Qed.
Lemma hi_two : forall A B C (k : parser N A -> parser N B -> parser N C) n j K L g h p, erases g p -> takes n p neutral ->
  high n j K g -> high n j L h -> high n j (S (Nat.max K L)) (m_two k g h).
Proof.
  intros A B C k n j K L g h p E T H1 H2 inp off L1 L2. specialize (H1 inp off L1 L2). specialize (E inp off). unfold m_two. destruct (g inp off) as [o m]. cbn [fst snd] in *.
  destruct o as [x d|e c| |]; cbn [snd up hgt]; try lia. symmetry in E. destruct (T inp off x d L1 L2 E) as [B1 B2].
  assert (L3 : length inp - (off + d) < n) by lia. specialize (H2 inp (off + d) B1 L3).
  specialize (B2 j (skipn (off + d) inp)). rewrite <- skip_split in B2 by exact B1. destruct (h inp (off + d)) as [o2 m2]. cbn in *. lia.
Qed.
Lemma hi_open : forall A B C (k : parser N A -> parser N B -> parser N C) n K L g h p, erases g p -> takes (S n) p (fun s => opens s /\ s <> []) ->
  flat K g -> high n 1 (9 + L) h -> high (S n) 0 (S (Nat.max K L)) (m_two k g h).
Proof.
  intros A B C k n K L g h p E T H1 H2 inp off L1 L2. specialize (H1 inp off). specialize (E inp off). unfold m_two. destruct (g inp off) as [o m]. cbn [fst snd] in *.
  destruct o as [x d|e c| |]; cbn [snd up hgt]; try lia. symmetry in E. destruct (T inp off x d L1 L2 E) as [B1 [B2 B3]].
  assert (d <> 0) by (intros ->; apply B3; reflexivity). specialize (H2 inp (off + d) B1 ltac:(lia)).
  specialize (B2 0 (skipn (off + d) inp)). rewrite <- skip_split in B2 by exact B1. destruct (h inp (off + d)) as [o2 m2]. cbn in *. lia.
Qed.
Lemma hi_two_flat : forall A B C (k : parser N A -> parser N B -> parser N C) n j K L g h, high n j K g -> flat L h -> high n j (S (Nat.max K L)) (m_two k g h).
Proof.
  intros A B C k n j K L g h H1 H2 inp off L1 L2. specialize (H1 inp off L1 L2). pose proof (nest_ge (skipn off inp) Out j) as G. unfold m_two. destruct (g inp off) as [o m]. cbn [fst snd] in *.
  destruct o as [x d|e c| |]; cbn [snd up hgt]; try lia. specialize (H2 inp (off + d)). destruct (h inp (off + d)) as [o2 m2]. cbn in *. lia.
Qed.
Lemma hi_loop : forall A B n j K (g : mparser A) (h : mparser B) p q, erases g p -> erases h q -> takes n p neutral -> takes n q neutral ->
  high n j K g -> flat K h ->
  forall fuel rend inp cur items all m, cur <= length inp -> length inp - cur < n -> 
    hgt (snd (m_loop fuel g (Some h) rend inp cur items all m)) + 9 * j <= Nat.max (hgt m + 9 * j) (K + 9 * nest Out j (skipn cur inp)).
Proof.
  intros A B n j K g h p q E1 E2 T1 T2 H1 H2. induction fuel as [|fuel IH]; intros rend inp cur items all m L1 L2; cbn [m_loop]; [cbn; lia|].
  destruct (rep_stop rend (length items)); [cbn; lia|]. pose proof (nest_ge (skipn cur inp) Out j) as G.
  specialize (E2 inp cur). specialize (H2 inp cur). destruct (h inp cur) as [o m1]. cbn [fst snd] in *. symmetry in E2.
  destruct o as [x d|e c| |]; [|cbn; lia..]. destruct (T2 inp cur x d L1 L2 E2) as [B1 B2]. assert (L3 : length inp - (cur + d) < n) by lia.
  specialize (B2 j (skipn (cur + d) inp)). rewrite <- skip_split in B2 by exact B1.
  specialize (E1 inp (cur + d)). specialize (H1 inp (cur + d) B1 L3). destruct (g inp (cur + d)) as [o2 m2]. cbn [fst snd] in *. symmetry in E1.
  destruct o2 as [y e|e c| |]; [|cbn; lia..]. destruct (T1 inp (cur + d) y e B1 L3 E1) as [B3 B4]. assert (L4 : length inp - (cur + d + e) < n) by lia.
  specialize (B4 j (skipn (cur + d + e) inp)). rewrite <- skip_split in B4 by exact B3.
  specialize (IH rend inp (cur + d + e) (y :: items) (all + d + e) (both (both m m1) m2) B3 L4). cbn in *. lia.
Qed.
Lemma hi_rep : forall A B n j K (g : mparser A) (h : mparser B) p q r, erases g p -> erases h q -> takes n p neutral -> takes n q neutral ->
  high n j K g -> flat K h -> high n j (S K) (m_rep g r (Some h)).
Proof.
  intros A B n j K g h p q r E1 E2 T1 T2 H1 H2 inp off L1 L2. unfold m_rep. pose proof (E1 inp off) as E. pose proof (H1 inp off L1 L2) as H. destruct (g inp off) as [o m].
  cbn [fst snd] in *. symmetry in E. destruct o as [x d|e c| |]; [|cbn; lia..]. destruct (T1 inp off x d L1 L2 E) as [B1 B2]. assert (L3 : length inp - (off + d) < n) by lia.
  specialize (B2 j (skipn (off + d) inp)). rewrite <- skip_split in B2 by exact B1.
  pose proof (@hi_loop A B n j K g h p q E1 E2 T1 T2 H1 H2 (rep_fuel (rg_end r) inp off) (rg_end r) inp (off + d) [x] d m B1 L3) as G.
  destruct (m_loop _ g (Some h) _ inp (off + d) [x] d m) as [dd m']. cbn in *. lia.
Qed.

Section Heights.
Variable F : Type.
Variable f64_parse : list N -> F + unit.
Variable utf8 : bool.
Notation jv := (mj_value f64_parse utf8).
Ltac fl := repeat first [ apply fl_leaf | apply fl_opt | apply fl_or | apply fl_rep0 | apply fl_two | apply fl_one | exact I | assumption ].

Lemma fl_space : flat 4 mj_space.
Proof. eapply fl_le; [unfold mj_space; fl|]. cbn. lia. Qed.
Lemma fl_number : flat 14 (mj_number f64_parse).
Proof. eapply fl_le; [unfold mj_number; fl|]. cbn. lia. Qed.
Lemma fl_string : flat 19 (mj_string utf8).
Proof. eapply fl_le; [unfold mj_string; fl|]. cbn. lia. Qed.
Lemma fl_sep1 : flat 6 (m_and (m_and mj_space (m_elm_ref (chr ","))) mj_space).
Proof. pose proof fl_space. eapply fl_le; [unfold m_and; fl|]. cbn. lia. Qed.
Lemma fl_sep2 : flat 6 (m_skip_right (m_skip_left mj_space (m_elm_ref (chr ","))) mj_space).
Proof. pose proof fl_space. eapply fl_le; [unfold m_skip_left, m_skip_right; fl|]. cbn. lia. Qed.
Lemma fl_open1 : forall c, flat 5 (m_and (m_elm_ref c) mj_space).
Proof. intros c. pose proof fl_space. eapply fl_le; [unfold m_and; fl|]. cbn. lia. Qed.
Lemma fl_open2 : forall c, flat 5 (m_skip_right (m_elm_ref c) mj_space).
Proof. intros c. pose proof fl_space. eapply fl_le; [unfold m_skip_right; fl|]. cbn. lia. Qed.
Lemma fl_close1 : forall c, flat 5 (m_and mj_space (m_elm_ref c)).
Proof. intros c. pose proof fl_space. eapply fl_le; [unfold m_and; fl|]. cbn. lia. Qed.
Lemma fl_close2 : forall c, flat 5 (m_skip_left mj_space (m_elm_ref c)).
Proof. intros c. pose proof fl_space. eapply fl_le; [unfold m_skip_left; fl|]. cbn. lia. Qed.

Lemma q_value_neutral : forall v s, q_value f64_parse utf8 v s -> neutral s.
Proof. intros v s (s0 & w & -> & H & Hw). apply neutral_app; [now apply neutral_jval in H|now apply neutral_ws]. Qed.
Lemma q_sep_neutral : forall s, q_sep s -> neutral s.
Proof. intros s (a & b & -> & Ha & Hb). repeat apply neutral_app; [now apply neutral_ws|now apply neutral_lit|now apply neutral_ws]. Qed.
Lemma q_member_neutral : forall v s, q_member f64_parse utf8 v s -> neutral s.
Proof.
  intros v s (sk & a & b & s0 & -> & H & Ha & Hb & Hv). apply neutral_app; [eapply neutral_string, H|]. apply neutral_app; [now apply neutral_ws|].
  apply neutral_app; [now apply neutral_lit|]. apply neutral_app; [now apply neutral_ws|eapply q_value_neutral, Hv].
Qed.
Lemma takes_value : forall n m, n <= m -> takes n (value_fuel f64_parse utf8 m) neutral.
Proof.
  intros n m L inp off v k H1 H2 E. rewrite (@ag_value F f64_parse utf8 n m L) in E by exact H2.
  destruct (h_success (@h_value_safe F f64_parse utf8 n) H1 E) as [B1 B2]. split; [exact B1|eapply q_value_neutral, B2].
Qed.
Lemma takes_agree : forall A n (p q : parser N A) P, agree n p q -> takes n q P -> takes n p P.
Proof. intros A n p q P H T inp off v k H1 H2 E. rewrite H in E by exact H2. now apply T in E. Qed.
Lemma takes_member : forall n m, n <= m -> takes n (member utf8 (value_fuel f64_parse utf8 m)) neutral.
Proof.
  intros n m L. eapply takes_agree with (q := member utf8 (value_safe f64_parse utf8 n)).
  - unfold member. apply ag_and; [apply ag_refl|]. apply ag_lazy. now apply ag_value.
  - eapply takes_hoare; [apply h_member, h_value_safe|]. cbv beta. apply q_member_neutral.
Qed.
Lemma opens_bracket : forall c w, opening c = true -> ws w -> opens ([c] ++ w) /\ [c] ++ w <> [].
Proof.
  intros c w Hc Hw. split; [|discriminate]. intros k r. cbn [app nest]. rewrite Hc. assert (E : (c =? 34)%N = false).
  { unfold opening in Hc. apply Bool.orb_true_iff in Hc. destruct Hc as [Hc|Hc]; apply N.eqb_eq in Hc; subst c; reflexivity. }
  rewrite E. now apply neutral_ws.
Qed.

(** A bracket, items with separators, a bracket. *)
Lemma hi_group : forall A B C D n K (open : mparser A) (item : mparser B) (sep : mparser C) (close : mparser D) po pi ps,
  erases open po -> takes (S n) po (fun s => opens s /\ s <> []) -> flat 5 open ->
  erases item pi -> takes n pi neutral -> high n 1 K item -> erases sep ps -> takes n ps neutral -> flat 6 sep -> flat 5 close -> 12 <= K ->
  high (S n) 0 (K - 6) (m_surround open (m_many0_sep item sep) close).
Proof.
  intros A B C D n K open item sep close po pi ps E1 T1 F1 E2 T2 H2 E3 T3 F3 F4 LK.
  eapply hi_le; [eapply (@hi_open A (list B) (list B) (@p_skip_left N A (list B)) n 5 (K - 7)); [exact E1|exact T1|exact F1|]|lia].
  eapply hi_le; [eapply hi_two_flat; [eapply hi_rep; [exact E2|exact E3|exact T2|exact T3|exact H2|]|exact F4]|lia].
  eapply fl_le; [exact F3|lia].
Qed.
Lemma er_sep1 : erases (m_and (m_and mj_space (m_elm_ref (chr ","))) mj_space) (p_and (p_and space (p_elm_ref (chr ","))) space).
Proof. apply er_and; [apply er_and; [apply er_space|apply er_leaf]|apply er_space]. Qed.
Lemma er_sep2 : erases (m_skip_right (m_skip_left mj_space (m_elm_ref (chr ","))) mj_space) (p_skip_right (p_skip_left space (p_elm_ref (chr ","))) space).
Proof. apply er_skip_right; [apply er_skip_left; [apply er_space|apply er_leaf]|apply er_space]. Qed.
Lemma takes_open1 : forall n c, opening c = true -> takes n (p_and (p_elm_ref c) space) (fun s => opens s /\ s <> []).
Proof. intros n c H. eapply takes_hoare; [apply h_open1|]. cbv beta. intros v s (a & -> & Ha). now apply opens_bracket. Qed.
Lemma takes_open2 : forall n c, opening c = true -> takes n (p_skip_right (p_elm_ref c) space) (fun s => opens s /\ s <> []).
Proof. intros n c H. eapply takes_hoare; [apply h_open2|]. cbv beta. intros v s (a & -> & Ha). now apply opens_bracket. Qed.
Lemma takes_sep1 : forall n, takes n (p_and (p_and space (p_elm_ref (chr ","))) space) neutral.
Proof. intros n. eapply takes_hoare; [apply h_sep1|]. cbv beta. intros _. apply q_sep_neutral. Qed.
Lemma takes_sep2 : forall n, takes n (p_skip_right (p_skip_left space (p_elm_ref (chr ","))) space) neutral.
Proof. intros n. eapply takes_hoare; [apply h_sep2|]. cbv beta. intros _. apply q_sep_neutral. Qed.

(** The frames of the parts that do not nest. *)
Definition base : nat := 24.
Lemma hi_array : forall n m, n <= m -> high n 0 base (jv m) -> high (S n) 0 (base - 5) (mj_array utf8 (jv m)).
Proof.
  intros n m L H. pose proof (er_lazy (er_value f64_parse utf8 m)) as E.
  assert (HL : high n 1 (S base) (m_lazy (jv m))) by now apply hi_one, hi_deeper.
  pose proof (takes_value L : takes n (p_lazy (fun _ => value_fuel f64_parse utf8 m)) neutral) as T.
  revert E HL T. generalize (jv m) as g. generalize (value_fuel f64_parse utf8 m) as p. unfold base. intros p g E HL T. unfold mj_array. destruct utf8.
  - eapply hi_le; [eapply hi_group|]; [apply er_and; [apply er_leaf|apply er_space]|now apply takes_open1|apply fl_open1|exact E|exact T|exact HL|apply er_sep1|apply takes_sep1|apply fl_sep1|apply fl_close1|lia|lia].
  - eapply hi_le; [eapply hi_group|]; [apply er_skip_right; [apply er_leaf|apply er_space]|now apply takes_open2|apply fl_open2|exact E|exact T|exact HL|apply er_sep2|apply takes_sep2|apply fl_sep2|apply fl_close2|lia|lia].
Qed.
Lemma fl_key : flat 22 (m_skip_right (m_skip_right (m_skip_right (mj_string utf8) mj_space) (m_elm_ref (chr ":"))) mj_space).
Proof. pose proof fl_string. pose proof fl_space. eapply fl_le; [unfold m_skip_right; fl|]. cbn. lia. Qed.
Lemma hi_member : forall n m, n <= m -> high n 0 base (jv m) -> high n 1 (base + 2) (mj_member utf8 (jv m)).
Proof.
  intros n m L H. unfold mj_member. eapply hi_le; [eapply hi_two with (p := p_skip_right (p_skip_right (p_skip_right (string_p utf8) space) (p_elm_ref (chr ":"))) space)|].
  - repeat apply er_skip_right; try apply er_space; [apply er_string|apply er_leaf].
  - eapply takes_hoare with (Q := fun k s => exists sk a b, s = sk ++ a ++ bs ":" ++ b /\ g_string false utf8 k sk /\ ws a /\ ws b).
    + eapply h_skip_right with (P := fun k s => exists sk a, s = sk ++ a ++ bs ":" /\ g_string false utf8 k sk /\ ws a); [|apply h_space|].
      * eapply h_skip_right with (P := fun k s => exists sk a, s = sk ++ a /\ g_string false utf8 k sk /\ ws a);
          [|apply h_elm_ref with (R := fun _ s => s = bs ":"); reflexivity|].
        -- eapply h_skip_right; [apply h_string|apply h_space|]. cbv beta. intros k _ s t Hs Ht. now exists s, t.
        -- cbv beta. intros k _ s t (sk & a & -> & H1 & H2) ->. exists sk, a. now rewrite <- app_assoc.
      * cbv beta. intros k _ s t (sk & a & -> & H1 & H2) Ht. exists sk, a, t. now rewrite <- !app_assoc.
    + cbv beta. intros k s (sk & a & b & -> & H1 & H2 & H3). repeat apply neutral_app; [eapply neutral_string, H1|now apply neutral_ws|now apply neutral_lit|now apply neutral_ws].
  - apply hi_flat, fl_key.
  - apply hi_one, hi_deeper, H.
  - unfold base. lia.
Qed.
Lemma hi_object : forall n m, n <= m -> high n 0 base (jv m) -> high (S n) 0 (base - 3) (mj_object utf8 (jv m)).
Proof.
  intros n m L H. unfold mj_object. eapply hi_le; [apply hi_one; eapply hi_group|]; [apply er_and; [apply er_leaf|apply er_space]|now apply takes_open1|apply fl_open1|
    apply er_member, er_value|now apply takes_member|now apply hi_member|apply er_sep1|apply takes_sep1|apply fl_sep1|apply fl_close1|unfold base; lia|unfold base; lia].
Qed.
Lemma hi_value : forall n m, n <= m -> high n 0 base (jv m).
Proof.
  induction n as [|n IH]; intros m L; [intros inp off H1 H2; lia|]. destruct m as [|m]; [lia|]. cbn [mj_value]. unfold mj_value_step.
  assert (L' : n <= m) by lia. pose proof (IH m L') as H. pose proof (hi_array L' H) as HA. pose proof (hi_object L' H) as HO.
  eapply hi_le; [eapply hi_two_flat; [apply hi_or; [apply hi_or; [apply hi_flat|apply hi_one, HA]|apply hi_one, HO]|apply fl_space]|].
  - pose proof fl_number. pose proof fl_string. unfold m_map. repeat apply fl_or; try (apply fl_one, fl_leaf); apply fl_one; eassumption.
  - unfold base. cbn. lia.
Qed.
Theorem json_height : forall inp, hgt (snd (mj_json f64_parse utf8 inp 0)) <= 9 * nesting inp + 26.
Proof.
  intros inp. unfold mj_json. assert (H : high (S (length inp)) 0 26 (m_skip_right (m_skip_left mj_space (jv (S (length inp)))) (m_leaf p_end))).
  { eapply hi_le; [eapply hi_two_flat; [eapply hi_two; [apply er_space|eapply takes_hoare; [apply h_space|cbv beta; intros _; apply neutral_ws]|apply hi_flat, fl_space|now apply hi_value]|apply fl_leaf]|]. unfold base. lia. }
  specialize (H inp 0 ltac:(lia) ltac:(lia)). cbn [skipn] in H. unfold nesting. lia.
Qed.
End Heights.

(** ** Values and the heights of the runs that read them *)
(** A run that returns a value [v] is at least [f v] high. *)
Definition deep {A} (f : A -> nat) (g : mparser A) : Prop := forall inp off v n, fst (g inp off) = Success v n -> f v <= hgt (snd (g inp off)).
Lemma dp_le : forall A (f f' : A -> nat) g, deep f g -> (forall v, f' v <= f v) -> deep f' g.
Proof. intros A f f' g H L inp off v n E. specialize (H inp off v n E). specialize (L v). lia. Qed.
Lemma dp_map : forall A B (g : mparser A) (k : A -> B) f f', deep f g -> (forall v, f' (k v) <= S (f v)) -> deep f' (m_map g k).
Proof.
  intros A B g k f f' H L inp off v n E. unfold m_map, m_one in *. specialize (H inp off). destruct (g inp off) as [[x d|e c| |] m]; cbn [fst snd p_map] in *; try discriminate.
  inv E. specialize (H x n eq_refl). specialize (L x). cbn. lia.
Qed.
Lemma dp_lazy : forall A (g : mparser A) f, deep f g -> deep (fun v => S (f v)) (m_lazy g).
Proof.
  intros A g f H inp off v n E. unfold m_lazy, m_one, p_lazy in *. specialize (H inp off). destruct (g inp off) as [o m]. cbn [fst snd] in *. specialize (H v n E). cbn. lia.
Qed.
Lemma dp_skip_left : forall A B (g : mparser A) (h : mparser B) f, deep f h -> deep (fun v => S (f v)) (m_skip_left g h).
Proof.
  intros A B g h f H inp off v n E. unfold m_skip_left, m_two in *. destruct (g inp off) as [[x d|e c| |] m]; cbn [fst snd p_skip_left] in *; try discriminate.
  specialize (H inp (off + d)). destruct (h inp (off + d)) as [[y d2|e c| |] m2]; cbn [fst snd p_skip_left advance_success add_commit] in *; try discriminate.
  inv E. specialize (H v d2 eq_refl). cbn. lia.
Qed.
Lemma dp_skip_right : forall A B (g : mparser A) (h : mparser B) f, deep f g -> deep (fun v => S (f v)) (m_skip_right g h).
Proof.
  intros A B g h f H inp off v n E. unfold m_skip_right, m_two in *. specialize (H inp off). destruct (g inp off) as [[x d|e c| |] m]; cbn [fst snd p_skip_right] in *; try discriminate.
  specialize (H x d eq_refl). destruct (h inp (off + d)) as [[y d2|e c| |] m2]; cbn [fst snd p_skip_right advance_success add_commit] in *; try discriminate.
  inv E. cbn. lia.
Qed.
Lemma dp_and2 : forall A B (g : mparser A) (h : mparser B) f, deep f h -> deep (fun v => S (f (snd v))) (m_and g h).
Proof.
  intros A B g h f H inp off v n E. unfold m_and, m_two in *. destruct (g inp off) as [[x d|e c| |] m]; cbn [fst snd p_and] in *; try discriminate.
  specialize (H inp (off + d)). destruct (h inp (off + d)) as [[y d2|e c| |] m2]; cbn [fst snd p_and advance_success add_commit] in *; try discriminate.
  inv E. specialize (H y d2 eq_refl). cbn. lia.
Qed.
Lemma dp_or : forall A (g h : mparser A) f, deep f g -> deep f h -> deep (fun v => S (f v)) (m_or g h).
Proof.
  intros A g h f H1 H2 inp off v n E. unfold m_or in *. specialize (H1 inp off). specialize (H2 inp off). destruct (g inp off) as [[x d|e [|]| |] m]; cbn [fst snd] in *; try discriminate.
  - specialize (H1 v n E). cbn. lia.
  - destruct (h inp off) as [o2 m2]. cbn [fst snd] in *. specialize (H2 v n E). cbn. lia.
Qed.
Lemma dp_loop : forall A B (g : mparser A) (s : option (mparser B)) f, deep f g ->
  forall fuel rend inp cur items all m l n, fst (m_loop fuel g s rend inp cur items all m) = RDone l n -> Forall (fun v => f v <= hgt m) items ->
  hgt m <= hgt (snd (m_loop fuel g s rend inp cur items all m)) /\ Forall (fun v => f v <= hgt (snd (m_loop fuel g s rend inp cur items all m))) l.
Proof.
  intros A B g s f H. induction fuel as [|fuel IH]; intros rend inp cur items all m l n; cbn [m_loop]; [discriminate|].
  assert (R : forall m' k, hgt m <= hgt m' -> RDone (rev items) k = RDone l n -> Forall (fun v => f v <= hgt m) items -> hgt m <= hgt m' /\ Forall (fun v => f v <= hgt m') l).
  { intros m' k L E G. inv E. split; [exact L|]. apply Forall_rev. eapply Forall_impl; [|exact G]. cbn. intros v. lia. }
  destruct (rep_stop rend (length items)); [cbn; intros E G; now apply (R m _ (le_n _) E)|].
  assert (EL : forall cur all m', hgt m <= hgt m' -> let r := (let '(o, m1) := g inp cur in
      match o with
      | Success v n => m_loop fuel g s rend inp (cur + n) (v :: items) (all + n) (both m' m1)
      | Failure _ _ => (RDone (rev items) all, both m' m1)
      | Panic => (RPanic, both m' m1)
      | Diverge => (RDiverge, both m' m1)
      end) in fst r = RDone l n -> Forall (fun v => f v <= hgt m) items -> hgt m <= hgt (snd r) /\ Forall (fun v => f v <= hgt (snd r)) l).
  { intros c a m0 L. pose proof (H inp c) as H0. destruct (g inp c) as [[v d|e b| |] m1]; cbn [fst snd] in *; [|intros E G; eapply R; [|exact E|exact G]; cbn; lia|discriminate..].
    intros E G. specialize (H0 v d eq_refl). destruct (IH rend inp (c + d) (v :: items) (a + d) (both m0 m1) l n E) as [I1 I2].
    - constructor; [cbn; lia|]. eapply Forall_impl; [|exact G]. cbn. intros w. lia.
    - cbn in I1. split; [lia|exact I2]. }
  destruct s as [h|]; [|now apply EL]. destruct (h inp cur) as [[v d|e b| |] m1]; cbn [fst snd]; [|intros E G; eapply R; [|exact E|exact G]; cbn; lia|discriminate..].
  apply EL. cbn. lia.
Qed.
Lemma finish_ok : forall A rs (inp : list N) off (l : list A) k v n, rep_finish rs inp off (RDone l k) = Success v n -> v = l /\ n = k.
Proof.
  intros A rs inp off l k v n. cbn [rep_finish].
  destruct rs as [mn|mn|]; try (destruct (length l <? mn); [destruct (ps_input inp (off + k)); discriminate|]); intros H; inv H; now split.
Qed.
Definition most {A} (f : A -> nat) (l : list A) : nat := list_max (map f l).
Lemma dp_rep : forall A B (g : mparser A) r (s : option (mparser B)) f, deep f g -> (forall inp off, 1 <= hgt (snd (g inp off))) ->
  deep (fun l => S (Nat.max 1 (most f l))) (m_rep g r s).
Proof.
  intros A B g r s f H P inp off v n E. unfold m_rep in *. pose proof (H inp off) as H0. specialize (P inp off).
  destruct (g inp off) as [[x d|e c| |] m]; cbn [fst snd] in *; try discriminate.
  - specialize (H0 x d eq_refl). pose proof (@dp_loop A B g s f H (rep_fuel (rg_end r) inp off) (rg_end r) inp (off + d) [x] d m) as L.
    destruct (m_loop _ g s _ inp (off + d) [x] d m) as [[l k| |] m']; cbn [fst snd] in *; try discriminate.
    apply finish_ok in E. destruct E as [-> ->]. destruct (L l k eq_refl) as [L1 L2]; [repeat constructor; exact H0|]. cbn [snd up hgt]. apply le_n_S. apply Nat.max_lub; [lia|]. unfold most. apply list_max_le.
    now apply Forall_map.
  - apply finish_ok in E. destruct E as [-> ->]. cbn. lia.
Qed.
Lemma dp_group : forall A B C D (open : mparser A) (item : mparser B) (sep : mparser C) (close : mparser D) f, deep f item -> (forall inp off, 1 <= hgt (snd (item inp off))) ->
  deep (fun l => 3 + Nat.max 1 (most f l)) (m_surround open (m_many0_sep item sep) close).
Proof. intros A B C D open item sep close f H P. unfold m_surround. apply dp_skip_left with (f := fun l => 2 + Nat.max 1 (most f l)), dp_skip_right with (f := fun l => 1 + Nat.max 1 (most f l)). now apply dp_rep. Qed.
Lemma one_pos : forall A B (k : parser N A -> parser N B) g inp off, 1 <= hgt (snd (m_one k g inp off)).
Proof. intros A B k g inp off. unfold m_one. destruct (g inp off). cbn. lia. Qed.
Lemma two_pos : forall A B C (k : parser N A -> parser N B -> parser N C) g h inp off, 1 <= hgt (snd (m_two k g h inp off)).
Proof. intros A B C k g h inp off. unfold m_two. destruct (g inp off) as [[x d|e c| |] m]; try (cbn; lia). destruct (h inp (off + d)). cbn. lia. Qed.

Section Depth.
Variable F : Type.
Variable f64_parse : list N -> F + unit.
Variable utf8 : bool.
(** How many arrays and objects contain one another. *)
Fixpoint depth (v : json F) : nat :=
  match v with
  | JArray l => S (list_max (map depth l))
  | JObject l => S (list_max (map (fun kv => depth (snd kv)) l))
  | _ => 0
  end.
Lemma most_mul : forall A (f : A -> nat) l k, most (fun v => k * f v) l = k * most f l.
Proof. intros A f l k. unfold most. induction l as [|x l IH]; cbn [map list_max fold_right]; [lia|]. change (fold_right Nat.max 0) with list_max. rewrite IH. now rewrite Nat.mul_max_distr_l. Qed.
Lemma most_in : forall A (f : A -> nat) l l', (forall x, In x l -> In x l') -> most f l <= most f l'.
Proof.
  intros A f l l' H. unfold most. apply list_max_le. apply Forall_map, Forall_forall. intros x Hx. apply H in Hx.
  pose proof (proj1 (list_max_le (map f l') _) (le_n _)) as K. rewrite Forall_map, Forall_forall in K. now apply K.
Qed.
Lemma most_S : forall A (f : A -> nat) l, S (most f l) <= Nat.max 1 (most (fun v => S (f v)) l).
Proof. intros A f l. unfold most. induction l as [|x l IH]; cbn [map list_max fold_right]; [lia|]. change (fold_right Nat.max 0) with list_max. lia. Qed.
Lemma collected_in : forall V (ms : list (list N * V)) kv, In kv (hm_collect ms) -> In kv ms.
Proof.
  intros V ms kv. unfold hm_collect. assert (G : forall ms m, In kv (fold_left (fun m kv => hm_set m (fst kv) (snd kv)) ms m) -> In kv m \/ In kv ms).
  { clear ms. induction ms as [|[k v] ms IH]; intros m H; [now left|]. cbn [fold_left fst snd] in H. apply IH in H. destruct H as [H|H]; [|right; now right].
    clear IH. induction m as [|[k' v'] m IHm]; cbn [hm_set] in H; [destruct H as [H|[]]; right; left; exact H|].
    destruct (list_eq_dec N.eq_dec k k') as [E|E]; (destruct H as [H|H]; [subst; try (left; now left)|]).
    - right. now left.
    - left. now right.
    - apply IHm in H. destruct H as [H|H]; [left; now right|now right]. }
  intros H. apply G in H. now destruct H.
Qed.
Lemma dp_value : forall n, deep (fun v => 8 * depth v) (mj_value f64_parse utf8 n).
Proof.
  induction n as [|n IH]; [intros inp off v k E; discriminate|]. cbn [mj_value]. unfold mj_value_step.
  assert (Z : forall A (g : mparser A) (k : A -> json F), (forall x, depth (k x) = 0) -> deep (fun v => 8 * depth v) (m_map g k)).
  { intros A g k Hk. apply dp_map with (f := fun _ => 0); [intros inp off v d _; lia|]. intros v. rewrite Hk. lia. }
  assert (Z2 : forall (g h : mparser (json F)), deep (fun v => 8 * depth v) g -> deep (fun v => 8 * depth v) h -> deep (fun v => 8 * depth v) (m_or g h)).
  { intros g h G H. eapply dp_le; [apply dp_or; [exact G|exact H]|]. cbn beta. lia. }
  apply dp_le with (f := fun v => S (S (8 * depth v - 2))); [|intros v; lia].
  apply (@dp_skip_right _ _ _ _ (fun v => S (8 * depth v - 2))), (@dp_or _ _ _ (fun v => 8 * depth v - 2)).
  - apply dp_le with (f := fun v => S (8 * depth v - 3)); [|intros v; lia]. apply (@dp_or _ _ _ (fun v => 8 * depth v - 3)).
    + apply dp_le with (f := fun v => 8 * depth v); [|intros v; lia]. apply Z2; [apply Z2; [apply Z2; [apply Z2|]|]|]; apply Z; reflexivity.
    + apply dp_map with (f := fun l => 3 + Nat.max 1 (most (fun v => S (8 * depth v)) l)).
      * unfold mj_array. destruct utf8; (apply dp_group; [apply dp_lazy, IH|intros inp off; apply one_pos]).
      * intros l. cbn [depth]. pose proof (most_S (fun v : json F => 8 * depth v) l) as M. rewrite most_mul in M. unfold most in *. lia.
  - apply dp_map with (f := fun l => 5 + most (fun kv => 8 * depth (snd kv)) l).
    + unfold mj_object. apply dp_map with (f := fun l => 3 + Nat.max 1 (most (fun kv => S (S (8 * depth (snd kv)))) l)).
      * apply dp_group; [|intros inp off; apply two_pos]. unfold mj_member. apply (@dp_and2 _ _ _ _ (fun v => S (8 * depth v))), dp_lazy, IH.
      * intros l. assert (M1 := @most_in _ (fun kv => 8 * depth (snd kv)) (hm_collect l) l (@collected_in _ l)).
        assert (M2 := most_S (fun kv : list N * json F => 8 * depth (snd kv)) l).
        assert (M3 : most (fun kv => S (8 * depth (snd kv))) l <= most (fun kv => S (S (8 * depth (snd kv)))) l).
        { unfold most. clear. induction l as [|x l IH]; cbn [map list_max fold_right]; [lia|]. change (fold_right Nat.max 0) with list_max. lia. }
        lia.
    + intros l. cbn [depth]. pose proof (most_mul (fun kv : list N * json F => depth (snd kv)) l 8) as M. unfold most in *. lia.
Qed.
Theorem json_deep : forall inp v n, json_p f64_parse utf8 inp 0 = Success v n -> 8 * depth v + 2 <= hgt (snd (mj_json f64_parse utf8 inp 0)).
Proof.
  intros inp v n H. rewrite <- (er_json f64_parse utf8 inp 0) in H. revert H. unfold mj_json.
  pose proof (dp_skip_right (m_leaf p_end) (dp_skip_left mj_space (@dp_value (S (length inp))))) as D. intros E. specialize (D inp 0 v n E). cbv beta in D. lia.
Qed.
End Depth.
