(** How many closures a run of the uri parsers calls: at most so many for every byte of the text, plus a constant. *)
From Verif Require Import Base Core Comb Closure RepFacts LitFacts Hoare Runs Text Uri UriSpec UriFacts UriComplete Measure MeasureUri MeasureCount.
Set Implicit Arguments.
Local Open Scope string_scope.
Local Open Scope nat_scope.
Local Open Scope list_scope.

(** A run at a position calls at most [a] closures for every element from there on, and [b] more. *)
Definition rest {A} (a b : nat) (g : mparser A) : Prop := forall inp off, off <= length inp -> cnt (snd (g inp off)) <= a * (length inp - off) + b.
(** The same, charged to the elements the run consumed. *)
Definition linear {A} (a b : nat) (g : mparser A) : Prop := forall n, lin n a b g.
Definition within {A} (j : nat) (g : mparser A) : Prop := forall n, inside n j g.

Lemma re_le : forall A a b a' b' (g : mparser A), rest a b g -> a <= a' -> b <= b' -> rest a' b' g.
Proof. intros A a b a' b' g H L1 L2 inp off L. specialize (H inp off L). etransitivity; [exact H|]. apply Nat.add_le_mono; [|exact L2]. now apply Nat.mul_le_mono_r. Qed.
Lemma re_small : forall A c (g : mparser A), small c g -> rest 0 c g.
Proof. intros A c g H inp off _. specialize (H inp off). lia. Qed.
Lemma re_linear : forall A a b (g : mparser A) j, within j g -> linear a b g -> rest a b g.
Proof.
  intros A a b g j I H inp off L. specialize (H (S (length inp)) inp off L ltac:(lia)). specialize (I (S (length inp)) inp off).
  destruct (g inp off) as [o m]. cbn [fst snd] in *. etransitivity; [exact H|]. apply Nat.add_le_mono_r, Nat.mul_le_mono_l.
  destruct o as [v k|e c| |]; cbn [used]; try lia. destruct (I v k L ltac:(lia) eq_refl). lia.
Qed.
Lemma re_one : forall A B (k : parser N A -> parser N B) a b g, rest a b g -> rest a (S b) (m_one k g).
Proof. intros A B k a b g H inp off L. specialize (H inp off L). unfold m_one. destruct (g inp off) as [o m]. cbn [fst snd up cnt] in *. lia. Qed.
Lemma re_two : forall A B C (k : parser N A -> parser N B -> parser N C) a b a' b' j g h, within j g -> rest a b g -> rest a' b' h -> rest (a + a') (S (b + b')) (m_two k g h).
Proof.
  intros A B C k a b a' b' j g h I H1 H2 inp off L. specialize (H1 inp off L). specialize (I (S (length inp)) inp off). unfold m_two.
  destruct (g inp off) as [[v n|e c| |] m]; cbn [fst snd up cnt] in *; [|nia..]. destruct (I v n L ltac:(lia) eq_refl) as [I1 _].
  specialize (H2 inp (off + n) I1). destruct (h inp (off + n)) as [o2 m2]. cbn [fst snd up both cnt] in *.
  assert (a' * (length inp - (off + n)) <= a' * (length inp - off)) by (apply Nat.mul_le_mono_l; lia). nia.
Qed.
(** What the first consumed is not read again by the second. *)
Lemma re_two_lin : forall A B C (k : parser N A -> parser N B -> parser N C) a b b' j g h, within j g -> linear a b g -> rest a b' h -> rest a (S (b + b')) (m_two k g h).
Proof.
  intros A B C k a b b' j g h I H1 H2 inp off L. pose proof (re_linear I H1 inp L) as H0. specialize (H1 (S (length inp)) inp off L ltac:(lia)). specialize (I (S (length inp)) inp off). unfold m_two.
  destruct (g inp off) as [[v n|e c| |] m]; cbn [fst snd up cnt used] in *; [|nia..]. destruct (I v n L ltac:(lia) eq_refl) as [I1 _].
  specialize (H2 inp (off + n) I1). destruct (h inp (off + n)) as [o2 m2]. cbn [fst snd up both cnt] in *.
  replace (length inp - off) with (n + (length inp - (off + n))) by lia. nia.
Qed.
Lemma re_or : forall A a b a' b' (g h : mparser A), rest a b g -> rest a' b' h -> rest (a + a') (S (b + b')) (m_or g h).
Proof.
  intros A a b a' b' g h H1 H2 inp off L. specialize (H1 inp off L). specialize (H2 inp off L). unfold m_or.
  destruct (g inp off) as [[v n|e [|]| |] m]; cbn [fst snd up cnt] in *; try nia. destruct (h inp off) as [o2 m2]. cbn [fst snd up both cnt] in *. nia.
Qed.
Lemma re_opt : forall A a b (g : mparser A), rest a b g -> rest a (b + 4) (m_opt g).
Proof.
  intros A a b g H. eapply re_le; [apply re_or; [apply re_one, re_one, H|apply re_small, sm_leaf]|lia|lia].
Qed.
Lemma re_loop : forall A B a b c (g : mparser A) (s : option (mparser B)), within 1 g -> linear a b g -> match s with Some h => small c h /\ within 0 h | None => True end ->
  forall fuel rend inp cur items all m, cur <= length inp ->
    cnt (snd (m_loop fuel g s rend inp cur items all m)) <= cnt m + (a + b + c) * (length inp - cur) + b + c.
Proof.
  intros A B a b c g s I H S0. induction fuel as [|fuel IH]; intros rend inp cur items all m L; cbn [m_loop]; [cbn [snd]; nia|].
  destruct (rep_stop rend (length items)); [cbn [snd]; nia|].
  assert (E : forall cur' all m, cur <= cur' -> cur' <= length inp -> cnt (snd (let '(o, m1) := g inp cur' in
      match o with
      | Success v n => m_loop fuel g s rend inp (cur' + n) (v :: items) (all + n) (both m m1)
      | Failure _ _ => (RDone (rev items) all, both m m1)
      | Panic => (RPanic, both m m1)
      | Diverge => (RDiverge, both m m1)
      end)) <= cnt m + (a + b + c) * (length inp - cur') + b).
  { intros c0 all0 m0 L0 L1. pose proof (re_linear I H inp L1) as R. specialize (H (S (length inp)) inp c0 L1 ltac:(lia)). specialize (I (S (length inp)) inp c0).
    destruct (g inp c0) as [[v n|e d| |] m1]; cbn [fst snd both cnt used] in *; [|nia..].
    destruct (I v n L1 ltac:(lia) eq_refl) as [I1 I2]. specialize (IH rend inp (c0 + n) (v :: items) (all0 + n) (both m0 m1) I1). cbn [both cnt] in IH.
    replace (length inp - c0) with (n + (length inp - (c0 + n))) by lia. nia. }
  destruct s as [h|].
  - destruct S0 as [S1 S2]. specialize (S1 inp cur). specialize (S2 (S (length inp)) inp cur). destruct (h inp cur) as [[v n|e d| |] m1]; cbn [fst snd both cnt] in *; [|nia..].
    destruct (S2 v n L ltac:(lia) eq_refl) as [I1 _]. specialize (E (cur + n) (all + n) (both m m1) ltac:(lia) I1). cbn [both cnt] in E.
    assert ((a + b + c) * (length inp - (cur + n)) <= (a + b + c) * (length inp - cur)) by (apply Nat.mul_le_mono_l; lia). lia.
  - specialize (E cur all m ltac:(lia) L). lia.
Qed.
Lemma re_rep : forall A B a b c (g : mparser A) r (s : option (mparser B)), within 1 g -> linear a b g -> match s with Some h => small c h /\ within 0 h | None => True end ->
  rest (a + b + c) (S (b + c)) (m_rep g r s).
Proof.
  intros A B a b c g r s I H S0 inp off L. pose proof (re_linear I H inp L) as R. unfold m_rep. pose proof (H (S (length inp)) inp off L ltac:(lia)) as H0. pose proof (I (S (length inp)) inp off) as I0.
  destruct (g inp off) as [[v n|e d| |] m]; cbn [fst snd both cnt used up] in *; [|nia..]. destruct (I0 v n L ltac:(lia) eq_refl) as [I1 I2].
  pose proof (@re_loop A B a b c g s I H S0 (rep_fuel (rg_end r) inp off) (rg_end r) inp (off + n) [v] n m I1) as K.
  destruct (m_loop _ g s _ inp (off + n) [v] n m) as [d m']. cbn [fst snd up cnt] in *. replace (length inp - off) with (n + (length inp - (off + n))) by lia. nia.
Qed.
Lemma re_rep0 : forall A a b (g : mparser A) r, within 1 g -> linear a b g -> rest (a + b) (S b) (m_rep g r (None : option (mparser unit))).
Proof. intros A a b g r I H. eapply re_le; [apply (@re_rep A unit a b 0 g r None I H Logic.I)|lia|lia]. Qed.

Lemma sm_rep : forall A c (g : mparser A) n m, small c g -> small (S (S m * c)) (m_rep g (rg_in n m) (None : option (mparser unit))).
Proof.
  intros A c g n m H inp off. pose proof (@sm_count A c g m H inp off) as K. unfold m_count, m_rep in *. cbn [rg_end rg_in] in *. destruct (g inp off) as [o m0].
  destruct o as [v k|e b| |]; cbn [fst snd up cnt] in *; try lia. now destruct (m_loop _ g _ _ inp (off + k) [v] k m0).
Qed.

Lemma wi_one : forall A B (k : parser N A -> parser N B) j g, (forall o inp off v n, k (fun _ _ => o) inp off = Success v n -> exists x, o = Success x n) -> within j g -> within j (m_one k g).
Proof. intros A B k j g K H n. now apply in_one. Qed.
Ltac one_out := let o := fresh in intros o ? ? ? ? E; destruct o; cbn in E; try discriminate; repeat match type of E with context [match ?x with _ => _ end] => destruct x; try discriminate end; inv E; now eexists.
Lemma wi_map : forall A B j (g : mparser A) (f : A -> B), within j g -> within j (m_map g f).
Proof. intros A B j g f H n. now apply in_map. Qed.
Lemma wi_map_res : forall A B E j (g : mparser A) (f : A -> B + E), within j g -> within j (m_map_res g f).
Proof. intros A B E j g f H n. now apply in_map_res. Qed.
Lemma wi_map_panic : forall A B j (g : mparser A) (f : A -> option B), within j g -> within j (m_map_panic g f).
Proof. intros A B j g f H. apply wi_one; [|exact H]. one_out. Qed.
Lemma wi_collect : forall A j (g : mparser A), within j g -> within j (m_collect g).
Proof. intros A j g H n. now apply in_collect. Qed.
Lemma wi_name : forall A j (g : mparser A) nm, within j g -> within j (m_name g nm).
Proof. intros A j g nm H. apply wi_one; [|exact H]. one_out. Qed.
Lemma wi_attempt : forall A j (g : mparser A), within j g -> within j (m_attempt g).
Proof. intros A j g H. apply wi_one; [|exact H]. one_out. Qed.
Lemma wi_filter_not : forall A j (g : mparser A) f, within j g -> within j (m_filter_not g f).
Proof. intros A j g f H n. now apply in_filter_not. Qed.
Lemma wi_and : forall A B j i (g : mparser A) (h : mparser B), within j g -> within i h -> within (j + i) (m_and g h).
Proof. intros A B j i g h H1 H2 n. now apply in_and. Qed.
Lemma wi_skip_left : forall A B j i (g : mparser A) (h : mparser B), within j g -> within i h -> within (j + i) (m_skip_left g h).
Proof. intros A B j i g h H1 H2 n. now apply in_skip_left. Qed.
Lemma wi_skip_right : forall A B j i (g : mparser A) (h : mparser B), within j g -> within i h -> within (j + i) (m_skip_right g h).
Proof. intros A B j i g h H1 H2 n. now apply in_skip_right. Qed.
Lemma wi_or : forall A j i (g h : mparser A), within j g -> within i h -> within (Nat.min j i) (m_or g h).
Proof. intros A j i g h H1 H2 n. now apply in_or. Qed.
Lemma wi_opt : forall A j (g : mparser A), within j g -> within 0 (m_opt g).
Proof. intros A j g H n. now apply in_opt with (j := j). Qed.
Lemma wi_many1 : forall A j (g : mparser A), within j g -> within j (m_many1 g).
Proof. intros A j g H n. now apply in_many1. Qed.
Lemma wi_rep0 : forall A j (g : mparser A) r, within j g -> within 0 (m_rep g r (None : option (mparser unit))).
Proof. intros A j g r H n. now apply in_rep with (j := j) (i := 0). Qed.
Lemma wi_many1_sep : forall A B j i (g : mparser A) (h : mparser B) r, within j g -> within i h -> within 0 (m_rep g r (Some h)).
Proof. intros A B j i g h r H1 H2 n. now apply in_rep with (j := j) (i := i). Qed.
Lemma wi_hoare : forall A j (g : mparser A) p Q, erases g p -> hoare p Q -> (forall v s, Q v s -> j <= length s) -> within j g.
Proof. intros A j g p Q H1 H2 H3 n. now apply in_hoare with (p := p) (Q := Q). Qed.
Lemma wi_le : forall A i j (g : mparser A), within i g -> j <= i -> within j g.
Proof. intros A i j g H L n. now apply in_le with (i := i). Qed.
Lemma wi_elm_pred_ref : forall f, within 1 (m_elm_pred_ref f).
Proof. intros f. eapply wi_hoare; [apply er_elm_pred_ref|apply h_elm_pred_ref with (R := fun _ s => length s = 1); reflexivity|]. cbn. lia. Qed.
Lemma wi_elm_ref_of : forall f, within 1 (m_elm_ref_of f).
Proof. intros f. eapply wi_hoare; [apply er_elm_ref_of|apply h_elm_ref_of with (R := fun _ s => length s = 1); reflexivity|]. cbn. lia. Qed.
Lemma wi_seqN : forall s, within (length s) (m_seqN s).
Proof. intros s. eapply wi_hoare; [apply er_seqN|apply h_seqN with (R := fun _ t => t = s); reflexivity|]. intros v t ->. apply le_n. Qed.
Lemma wi_tag : forall s, within (length s) (m_tag s).
Proof. intros s. eapply wi_hoare; [apply er_tag|apply h_tag with (R := fun _ t => t = s); reflexivity|]. intros v t ->. apply le_n. Qed.

(** A closure around a closure, for the closures that keep what was consumed. *)
Definition keeps {A B} (k : parser N A -> parser N B) : Prop := forall o inp off v n, k (fun _ _ => o) inp off = Success v n -> exists x, o = Success x n.
Lemma ln_one : forall A B (k : parser N A -> parser N B) a b g j, keeps k -> within j g -> linear a b g -> linear a (S b) (m_one k g).
Proof. intros A B k a b g j K I H n. eapply li_one; [exact K|apply I|apply H]. Qed.
Lemma ln_small : forall A a c (g : mparser A), small c g -> linear a c g.
Proof. intros A a c g H n. now apply li_small. Qed.
Lemma ln_le : forall A a b a' b' (g : mparser A), linear a b g -> a <= a' -> b <= b' -> linear a' b' g.
Proof. intros A a b a' b' g H L1 L2 n. eapply li_le; [apply H|exact L1|exact L2]. Qed.
Lemma ln_many : forall A c (g : mparser A) mn, small c g -> within 1 g -> linear c (S c) (m_rep g (rg_from mn) (None : option (mparser unit))).
Proof. intros A c g mn H I n. now apply li_many. Qed.
Lemma ln_and : forall A B a b c (g : mparser A) (h : mparser B) j i, within j g -> linear a b g -> within i h -> linear a c h -> linear a (S (b + c)) (m_and g h).
Proof. intros A B a b c g h j i I1 H1 I2 H2 n. eapply li_and; [apply I1|apply H1|apply I2|apply H2]. Qed.
Lemma ln_skip_left : forall A B a b c (g : mparser A) (h : mparser B) j i, within j g -> linear a b g -> within i h -> linear a c h -> linear a (S (b + c)) (m_skip_left g h).
Proof. intros A B a b c g h j i I1 H1 I2 H2 n. eapply li_skip_left; [apply I1|apply H1|apply I2|apply H2]. Qed.
Lemma ln_opt : forall A a b c (g : mparser A) j, within j g -> linear a b g -> cheap c g -> linear a (b + c + 4) (m_opt g).
Proof. intros A a b c g j I H C n. eapply li_opt; [apply I|apply H|exact C]. Qed.
Lemma ln_map : forall A B a b (g : mparser A) (f : A -> B) j, within j g -> linear a b g -> linear a (S b) (m_map g f).
Proof. intros A B a b g f j I H n. eapply li_map; [apply I|apply H]. Qed.
Lemma ln_map_res : forall A B E a b (g : mparser A) (f : A -> B + E) j, within j g -> linear a b g -> linear a (S b) (m_map_res g f).
Proof. intros A B E a b g f j I H n. eapply li_map_res; [apply I|apply H]. Qed.
Lemma ln_collect : forall A a b (g : mparser A) j, within j g -> linear a b g -> linear a (S b) (m_collect g).
Proof. intros A a b g j I H n. eapply li_collect; [apply I|apply H]. Qed.
Lemma ln_name : forall A a b (g : mparser A) nm j, within j g -> linear a b g -> linear a (S b) (m_name g nm).
Proof. intros A a b g nm j I H. eapply ln_one; [|exact I|exact H]. unfold keeps. one_out. Qed.

Ltac sm := repeat first [eassumption | apply sm_leaf | apply sm_or | apply sm_opt | apply sm_two | apply sm_one | apply sm_count | apply sm_rep].
Ltac small_by := eapply sm_le; [sm|apply Nat.leb_le; reflexivity].
Ltac wi := repeat first [eassumption | apply wi_elm_pred_ref | apply wi_elm_ref_of | apply wi_seqN | apply wi_tag
  | apply wi_name | apply wi_attempt | apply wi_map_res | apply wi_map_panic | apply wi_collect | apply wi_filter_not | apply wi_map | apply wi_skip_left | apply wi_skip_right | apply wi_and
  | eapply wi_opt | apply wi_or | apply wi_many1 | eapply wi_rep0 | eapply wi_many1_sep].
Ltac within_by := eapply wi_le; [wi|cbn; lia].

Lemma re_many : forall A c (g : mparser A) mn, small c g -> within 1 g -> rest c (S c) (m_rep g (rg_from mn) (None : option (mparser unit))).
Proof. intros A c g mn H I. eapply re_linear; [eapply wi_rep0, I|now apply ln_many]. Qed.
Ltac re := repeat match goal with
  | |- within _ _ => progress wi
  | |- small _ _ => progress sm
  | |- rest _ _ _ => first [eassumption | apply re_small; eassumption | apply (re_small (@sm_leaf _ _)) | apply re_many | apply re_opt | apply re_or | eapply re_two | apply re_one]
  end.
Ltac rest_by := eapply re_le; [re|apply Nat.leb_le; reflexivity|apply Nat.leb_le; reflexivity].

Section Grammar.
Variable v6_parse : list N -> ipv6 + unit.

(** ** Parsers that call so many closures at most, whatever the text *)
Lemma sm_unreserved : small 7 mu_unreserved.
Proof. small_by. Qed.
Lemma sm_pchar : small 24 mu_pchar.
Proof. small_by. Qed.
Lemma wi_pchar : within 1 mu_pchar.
Proof. within_by. Qed.
Lemma sm_pchar_q : small 24 mu_pchar_without_eq_amp.
Proof. small_by. Qed.
Lemma wi_pchar_q : within 1 mu_pchar_without_eq_amp.
Proof. within_by. Qed.
Lemma sm_v4 : small 214 mu_ip_v4_address.
Proof. small_by. Qed.
Lemma sm_h16 : small 17 mu_h16.
Proof. small_by. Qed.
Lemma wi_h16 : within 0 mu_h16.
Proof. within_by. Qed.
Lemma sm_ls32 : small 256 mu_ls32.
Proof. pose proof sm_h16. pose proof sm_v4. small_by. Qed.
Lemma wi_v4 : within 0 mu_ip_v4_address.
Proof. within_by. Qed.
Lemma wi_ls32 : within 0 mu_ls32.
Proof. pose proof wi_h16. pose proof wi_v4. within_by. Qed.
Lemma sm_v6 : small 3121 (mu_ip_v6_address v6_parse).
Proof. pose proof sm_h16. pose proof sm_ls32. small_by. Qed.
Lemma wi_v6 : within 0 (mu_ip_v6_address v6_parse).
Proof. pose proof wi_h16. pose proof wi_ls32. within_by. Qed.

(** ** Parsers that call so many for every byte *)
(** host_parsers.rs 35-38, user_info_parsers.rs 7: the alternatives of a name. *)
Definition mu_name_char : mparser bytes := m_or (m_or (m_attempt mu_unreserved) (m_attempt mu_pct_encoded)) mu_sub_delims.
Lemma sm_name_char : small 21 mu_name_char.
Proof. small_by. Qed.
Lemma wi_name_char : within 1 mu_name_char.
Proof. within_by. Qed.
(** host_parsers.rs 27: the alternatives behind the dot. *)
Definition mu_future_char : mparser bytes := m_or (m_or mu_unreserved mu_sub_delims) (m_collect (m_elm_ref (chr ":"))).
Lemma sm_future_char : small 14 mu_future_char.
Proof. small_by. Qed.
Lemma wi_future_char : within 1 mu_future_char.
Proof. within_by. Qed.
Lemma re_future : rest 16 28 mu_ip_v_future.
Proof. pose proof sm_future_char. pose proof wi_future_char. unfold mu_ip_v_future. fold mu_future_char. rest_by. Qed.
Lemma wi_future : within 0 mu_ip_v_future.
Proof. within_by. Qed.
Lemma re_literal : rest 16 3158 (mu_ip_literal_p v6_parse).
Proof. pose proof sm_v6. pose proof wi_v6. pose proof re_future. pose proof wi_future. rest_by. Qed.
Lemma wi_literal : within 0 (mu_ip_literal_p v6_parse).
Proof. pose proof wi_v6. pose proof wi_future. within_by. Qed.
Lemma re_reg_name : rest 21 27 mu_reg_name.
Proof. pose proof sm_name_char. pose proof wi_name_char. unfold mu_reg_name. fold mu_name_char. rest_by. Qed.
Lemma wi_reg_name : within 1 mu_reg_name.
Proof. within_by. Qed.
Lemma re_host : rest 37 3406 (mu_host v6_parse).
Proof. pose proof re_literal. pose proof sm_v4. pose proof re_reg_name. rest_by. Qed.
Lemma wi_host : within 0 (mu_host v6_parse).
Proof. pose proof wi_literal. pose proof wi_v4. pose proof wi_reg_name. within_by. Qed.
Lemma re_port : rest 2 6 mu_port.
Proof. rest_by. Qed.
Lemma wi_port : within 0 mu_port.
Proof. within_by. Qed.
Lemma wi_names : within 0 (mu_to_string (m_collect (m_many0 mu_name_char))).
Proof. pose proof wi_name_char. within_by. Qed.
Lemma ln_names : linear 21 25 (mu_to_string (m_collect (m_many0 mu_name_char))).
Proof.
  pose proof sm_name_char. pose proof wi_name_char.
  assert (W : within 0 (m_many0 mu_name_char)) by within_by. assert (W2 : within 0 (m_collect (m_many0 mu_name_char))) by within_by.
  eapply ln_map_res; [apply wi_map, W2|]. eapply ln_map; [exact W2|]. eapply ln_collect; [exact W|]. now apply ln_many.
Qed.
Lemma re_user : rest 21 60 mu_user_info_p.
Proof.
  pose proof sm_name_char. pose proof wi_name_char. unfold mu_user_info_p. cbv zeta. fold mu_name_char.
  assert (R : rest 21 32 (m_opt (m_skip_left (m_elm (chr ":")) (mu_to_string (m_collect (m_many1 mu_name_char)))))) by rest_by.
  eapply re_le; [apply re_one, re_one; eapply re_two_lin; [apply wi_names|apply ln_names|exact R]|apply Nat.leb_le; reflexivity|apply Nat.leb_le; reflexivity].
Qed.
Lemma wi_user : within 0 mu_user_info_p.
Proof. pose proof wi_name_char. unfold mu_user_info_p. cbv zeta. fold mu_name_char. within_by. Qed.
Lemma re_authority : rest 60 3487 (mu_authority_p v6_parse).
Proof. pose proof re_user. pose proof wi_user. pose proof re_host. pose proof wi_host. pose proof re_port. pose proof wi_port. rest_by. Qed.
Lemma wi_authority : within 0 (mu_authority_p v6_parse).
Proof. pose proof wi_user. pose proof wi_host. pose proof wi_port. within_by. Qed.

(** ** Paths *)
Lemma wi_segment : within 0 mu_segment.
Proof. pose proof wi_pchar. within_by. Qed.
Lemma ln_segment : linear 24 27 mu_segment.
Proof.
  pose proof sm_pchar. pose proof wi_pchar. assert (W : within 0 (m_many0 mu_pchar)) by within_by.
  eapply ln_name; [apply wi_collect, W|]. eapply ln_collect; [exact W|]. now apply ln_many.
Qed.
Lemma wi_slash_segment : within 1 mu_slash_segment.
Proof. pose proof wi_segment. within_by. Qed.
Lemma ln_slash_segment : linear 24 31 mu_slash_segment.
Proof.
  assert (W : within 1 (m_elm (chr "/"))) by within_by. assert (S0 : small 2 (m_elm (chr "/"))) by small_by.
  eapply ln_le; [eapply ln_collect; [eapply wi_and; [exact W|apply wi_segment]|]; eapply ln_and; [exact W|apply ln_small, S0|apply wi_segment|apply ln_segment]|apply le_n|apply Nat.leb_le; reflexivity].
Qed.
Lemma re_abempty : forall r, rest 57 36 (mu_path_abempty r).
Proof.
  intros r. pose proof wi_slash_segment as W. pose proof ln_slash_segment as L.
  assert (L2 : linear 24 33 (mu_to_string mu_slash_segment)) by (eapply ln_map_res; [apply wi_map, W|eapply ln_map; [exact W|exact L]]).
  assert (W2 : within 1 (mu_to_string mu_slash_segment)) by within_by.
  eapply re_le; [apply re_one, re_one, re_rep0; [exact W2|exact L2]|apply Nat.leb_le; reflexivity|apply Nat.leb_le; reflexivity].
Qed.
Lemma wi_abempty : forall r, within 0 (mu_path_abempty r).
Proof. intros r. pose proof wi_slash_segment. unfold mu_path_abempty. within_by. Qed.
Lemma re_segments : rest 55 32 (m_many0 mu_slash_segment).
Proof. pose proof wi_slash_segment as W. pose proof ln_slash_segment as L. eapply re_le; [apply re_rep0; [exact W|exact L]|apply Nat.leb_le; reflexivity|apply Nat.leb_le; reflexivity]. Qed.
Lemma re_rootless : rest 79 64 mu_path_rootless.
Proof.
  pose proof sm_pchar. pose proof wi_pchar. pose proof re_segments. rest_by.
Qed.
Lemma wi_rootless : within 0 mu_path_rootless.
Proof. pose proof wi_pchar. pose proof wi_slash_segment. within_by. Qed.
Lemma re_hier : rest 253 3636 (mu_hier_part_p v6_parse).
Proof. pose proof re_authority. pose proof wi_authority. pose proof (re_abempty true). pose proof (re_abempty false). pose proof re_rootless. rest_by. Qed.
Lemma wi_hier : within 0 (mu_hier_part_p v6_parse).
Proof. pose proof wi_authority. pose proof (wi_abempty true). pose proof (wi_abempty false). pose proof wi_rootless. within_by. Qed.

(** ** The query: the text of a key or value is ascii, so its conversion does not fail *)
(** query_parsers.rs 8-9: the alternatives of a key or value. *)
Definition mu_query_char : mparser bytes := m_or mu_pchar_without_eq_amp (m_collect (m_elm_of (bs "/?"))).
Lemma sm_query_char : small 28 mu_query_char.
Proof. pose proof sm_pchar_q. small_by. Qed.
Lemma wi_query_char : within 1 mu_query_char.
Proof. pose proof wi_pchar_q. within_by. Qed.
Lemma many0_ok : forall A (p : parser N A) inp off e c, p_many0 p inp off <> Failure e c.
Proof.
  intros A p inp off e c E. unfold p_many0, p_repeat_sep, repeat_sep_fuel in E. destruct (p inp off) as [x k|e0 b0| |]; try discriminate.
  destruct (rep_loop _ p None _ inp (off + k) [x] k); discriminate.
Qed.
Lemma code_point_ok : forall inp off e c, code_point inp off <> Failure e c.
Proof.
  intros inp off e c. unfold code_point, to_string, p_map_res, p_map. set (q := p_collect _).
  assert (H : hoare q (txt (enc c_query))).
  { apply h_enc0. apply h_or; [apply h_pchar_q|]. eapply txt_w; [apply h_collect_elt with (C := among (bs "/?"))|].
    - apply h_elm_of. intros x Hx. now split.
    - intros s. apply one_piece. unfold c_query. auto. }
  specialize (H inp off). destruct (q inp off) as [v n|e0 c0| |] eqn:E; try discriminate.
  - assert (L : off <= length inp).
    { unfold q, p_collect in E. destruct (p_many0 _ inp off) as [x k| | |]; try discriminate. destruct (slice_with_len inp off k) eqn:F; [|discriminate].
      unfold slice_with_len, slice in F. destruct (_ && _)%bool eqn:G in F; [|discriminate]. apply andb_true_iff in G. rewrite !Nat.leb_le in G. lia. }
    destruct (H L) as [_ [-> Henc]]. rewrite ascii_utf8; [discriminate|]. eapply enc_ascii; [apply query_small|exact Henc].
  - exfalso. unfold q, p_collect in E. destruct (p_many0 _ inp off) as [x k|e1 c1| |] eqn:F; try discriminate; [|now apply many0_ok in F]. now destruct (slice_with_len inp off k).
Qed.
Lemma wi_code_point : within 0 mu_code_point.
Proof. pose proof wi_query_char. unfold mu_code_point. fold mu_query_char. within_by. Qed.
Lemma ln_code_point : linear 28 32 mu_code_point.
Proof.
  pose proof sm_query_char. pose proof wi_query_char. unfold mu_code_point. fold mu_query_char.
  assert (W : within 0 (m_many0 mu_query_char)) by within_by. assert (W2 : within 0 (m_collect (m_many0 mu_query_char))) by within_by.
  eapply ln_map_res; [apply wi_map, W2|]. eapply ln_map; [exact W2|]. eapply ln_collect; [exact W|]. now apply ln_many.
Qed.
Lemma ch_value : cheap 3 (m_skip_left (m_elm (chr "=")) mu_code_point).
Proof.
  intros inp off e b. assert (S0 : small 2 (m_elm (chr "="))) by small_by. specialize (S0 inp off). unfold m_skip_left, m_two.
  destruct (m_elm (chr "=") inp off) as [[x n|e0 b0| |] m]; cbn [fst snd up cnt] in *; try (intros _; lia).
  pose proof (er_code_point inp (off + n)) as E. pose proof (@code_point_ok inp (off + n)) as K. destruct (mu_code_point inp (off + n)) as [o m2]. cbn [fst] in E.
  rewrite <- E in K. cbn [fst]. destruct o as [v k|e1 c1| |]; cbn; try discriminate. exfalso. eapply K; reflexivity.
Qed.
Lemma wi_key_values : within 0 mu_key_values.
Proof. pose proof wi_code_point. within_by. Qed.
Lemma ln_key_values : linear 28 75 mu_key_values.
Proof.
  pose proof wi_code_point as W. pose proof ln_code_point as L. assert (S0 : small 2 (m_elm (chr "="))) by small_by. assert (W0 : within 1 (m_elm (chr "="))) by within_by.
  assert (W1 : within 0 (m_skip_left (m_elm (chr "=")) mu_code_point)) by within_by.
  eapply ln_le; [eapply ln_and; [exact W|exact L|eapply wi_opt, W1|]; eapply ln_opt; [exact W1| |exact ch_value]; eapply ln_skip_left; [exact W0|apply ln_small, S0|exact W|exact L]|apply le_n|apply Nat.leb_le; reflexivity].
Qed.
Lemma re_query : rest 106 156 mu_query_p.
Proof.
  pose proof wi_key_values as W. pose proof ln_key_values as L. assert (S0 : small 2 (m_elm (chr "&"))) by small_by. assert (W0 : within 1 (m_elm (chr "&"))) by within_by.
  assert (W1 : within 1 (m_skip_left (m_elm (chr "&")) mu_key_values)) by within_by.
  assert (R : rest 106 79 (m_many0 (m_skip_left (m_elm (chr "&")) mu_key_values))).
  { eapply re_le; [apply re_rep0; [exact W1|]; eapply ln_skip_left; [exact W0|apply ln_small, S0|exact W|exact L]|apply Nat.leb_le; reflexivity|apply Nat.leb_le; reflexivity]. }
  eapply re_le; [apply re_one; eapply re_two_lin; [exact W|eapply ln_le; [exact L| |apply le_n]|exact R]|apply Nat.leb_le; reflexivity|apply Nat.leb_le; reflexivity]. lia.
Qed.
Lemma wi_query : within 0 mu_query_p.
Proof. pose proof wi_key_values. within_by. Qed.
Definition mu_fragment_char : mparser bytes := m_or mu_pchar (m_collect (mu_elm_ref_of (bs "/?"))).
Lemma re_fragment : rest 27 32 mu_fragment.
Proof.
  pose proof sm_pchar. pose proof wi_pchar. assert (S0 : small 27 mu_fragment_char) by small_by. assert (W0 : within 1 mu_fragment_char) by within_by. unfold mu_fragment. fold mu_fragment_char. rest_by.
Qed.

(** ** The whole URI *)
Definition mu_scheme_char : mparser N := m_or (m_or m_elm_alpha_ref m_elm_digit_ref) (mu_elm_ref_of (bs "+-.")).
Lemma sm_scheme_char : small 5 mu_scheme_char.
Proof. small_by. Qed.
Lemma wi_scheme_char : within 1 mu_scheme_char.
Proof. within_by. Qed.
Lemma re_scheme : rest 5 12 mu_scheme.
Proof. pose proof sm_scheme_char. pose proof wi_scheme_char. unfold mu_scheme. fold mu_scheme_char. rest_by. Qed.
Lemma wi_scheme : within 0 mu_scheme.
Proof. pose proof wi_scheme_char. unfold mu_scheme. fold mu_scheme_char. within_by. Qed.
Lemma re_absolute : rest 364 3821 (mu_absolute_uri v6_parse).
Proof. pose proof re_scheme. pose proof wi_scheme. pose proof re_hier. pose proof wi_hier. pose proof re_query. rest_by. Qed.
Lemma re_uri : rest 391 3861 (mu_uri_p v6_parse).
Proof. pose proof re_scheme. pose proof wi_scheme. pose proof re_hier. pose proof wi_hier. pose proof re_query. pose proof wi_query. pose proof re_fragment. rest_by. Qed.

(** ** How deep the calls nest *)
Lemma fl_rep_in : forall A i (g : mparser A) r, flat i g -> flat (S i) (m_repeat g r).
Proof. intros A i g r H. now apply fl_rep0. Qed.
Ltac fl := repeat first [eassumption | apply fl_leaf | apply fl_or | apply fl_opt | apply fl_two | apply fl_one | apply fl_rep0].
Ltac flat_by := eapply fl_le; [fl|apply Nat.leb_le; reflexivity].
Lemma fl_v6 : flat 40 (mu_ip_v6_address v6_parse).
Proof. flat_by. Qed.
Lemma fl_uri : flat 66 (mu_uri_p v6_parse).
Proof. pose proof fl_v6. flat_by. Qed.
Lemma fl_absolute : flat 65 (mu_absolute_uri v6_parse).
Proof. pose proof fl_v6. flat_by. Qed.
End Grammar.
