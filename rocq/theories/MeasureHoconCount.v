(** How many closures a run of the hocon parser calls at most.  What is read twice is what an opening bracket or a comment left unfinished, so a
    text is read again at most once for each of them. *)
From Verif Require Import Base Core Comb Closure RepFacts LitFacts Hoare Runs Weak Agree Text Json JsonSpec JsonFacts Hocon HoconFacts HoconParse HoconSpec HoconComplete HoconConf HoconLookup
  Measure MeasureCount MeasureUri MeasureUriCount MeasureHocon MeasureHoconAtoms.
Set Implicit Arguments.
Local Open Scope string_scope.
Local Open Scope nat_scope.
Local Open Scope list_scope.

(** The characters that open an array, an object or a comment. *)
Definition is_mark (c : N) : bool := ((c =? chr "{") || (c =? chr "[") || (c =? chr "#") || (c =? chr "/"))%N.
Definition marks (l : list N) : nat := length (filter is_mark l).
Lemma marks_app : forall a b, marks (a ++ b) = marks a + marks b.
Proof. intros a b. unfold marks. now rewrite filter_app, app_length. Qed.
Lemma marks_skip : forall l i j, i <= j -> marks (skipn j l) <= marks (skipn i l).
Proof.
  intros l i j H. replace j with (i + (j - i)) by lia. generalize (j - i). intros k. rewrite <- skipn_skipn'.
  rewrite <- (firstn_skipn k (skipn i l)) at 2. rewrite marks_app. lia.
Qed.
Lemma marks_at : forall l i s c, i <= s -> nth_error l s = Some c -> is_mark c = true -> S (marks (skipn (S s) l)) <= marks (skipn i l).
Proof.
  intros l i s c H E M. apply Nat.le_trans with (marks (skipn s l)); [|now apply marks_skip]. clear i H. revert s E. induction l as [|x l IH]; intros [|s] E; try discriminate.
  - injection E as ->. cbn [skipn]. unfold marks at 2. cbn [filter]. rewrite M. cbn [length]. unfold marks. lia.
  - cbn [skipn]. now apply IH.
Qed.

Section Count.
Variable D : Type.
Variable dec : list N -> option D.
Notation cv := (cv D).
Notation key := (list N).
Notation soc := space_or_comment.
Notation msoc := mf_space_or_comment.
(** The length of the text, and a bound on the calls of the parsers without recursion. *)
Variables n a : nat.
Hypothesis Ha : 24 <= a.
Definition unit_cost := 16 * a.
Definition pot (inp : list N) (off : nat) : nat := unit_cost * (S (n - off) * 2 ^ marks (skipn off inp)).
Lemma pow_pos : forall k, 1 <= 2 ^ k.
Proof. intros k. pose proof (Nat.pow_nonzero 2 k). lia. Qed.
Lemma pot_pos : forall inp off, unit_cost <= pot inp off.
Proof. intros inp off. unfold pot. pose proof (pow_pos (marks (skipn off inp))). nia. Qed.
Lemma pot_le : forall inp i j, i <= j -> pot inp j <= pot inp i.
Proof. intros inp i j H. unfold pot. apply Nat.mul_le_mono_l, Nat.mul_le_mono; [lia|]. apply Nat.pow_le_mono_r; [lia|]. now apply marks_skip. Qed.
Lemma pot_step : forall inp i j, i < j -> j <= n -> pot inp j + unit_cost <= pot inp i.
Proof.
  intros inp i j H L. unfold pot. assert (P : 2 ^ marks (skipn j inp) <= 2 ^ marks (skipn i inp)) by (apply Nat.pow_le_mono_r; [lia|]; apply marks_skip; lia).
  pose proof (pow_pos (marks (skipn i inp))) as Q. replace (S (n - i)) with (S (n - j) + (j - i)) by lia. nia.
Qed.
Lemma pot_mark : forall inp i j, i < j -> j <= n -> S (marks (skipn j inp)) <= marks (skipn i inp) -> 2 * pot inp j + 2 * unit_cost <= pot inp i.
Proof.
  intros inp i j H L K. unfold pot. assert (P : 2 ^ S (marks (skipn j inp)) <= 2 ^ marks (skipn i inp)) by (apply Nat.pow_le_mono_r; [lia|exact K]).
  rewrite Nat.pow_succ_r' in P. pose proof (pow_pos (marks (skipn j inp))) as Q. remember (2 ^ marks (skipn j inp)) as x. remember (2 ^ marks (skipn i inp)) as y.
  replace (S (n - i)) with (S (n - j) + (j - i)) by lia. assert (2 * (S (n - j) * x) + 2 <= (S (n - j) + (j - i)) * y) by nia. nia.
Qed.
Lemma pot_at : forall inp i s c, i <= s -> S s <= n -> nth_error inp s = Some c -> is_mark c = true -> 2 * pot inp (S s) + 2 * unit_cost <= pot inp i.
Proof. intros inp i s c H L E M. apply pot_mark; [lia|exact L|]. now apply marks_at with (c := c). Qed.

(** ** Runs paid by what they consume *)
Definition upto {A} (c : nat) (g : mparser A) : Prop := forall inp off, length inp = n -> off <= n -> cnt (snd (g inp off)) <= c.
Definition pays {A} (e : nat) (g : mparser A) : Prop := forall inp off, length inp = n -> off <= n ->
  match fst (g inp off) with
  | Success _ d => off + d <= n /\ 1 <= d /\ cnt (snd (g inp off)) + e + pot inp (off + d) <= pot inp off
  | _ => cnt (snd (g inp off)) + e <= pot inp off
  end.
Definition inward {A} (g : mparser A) : Prop := forall inp off v d, length inp = n -> off <= n -> fst (g inp off) = Success v d -> off + d <= n.
Lemma iw_within : forall A j (g : mparser A), within j g -> inward g.
Proof. intros A j g H inp off v d L Ho E. destruct (H (S n) inp off v d) as [H1 H2]; [lia|lia|exact E|lia]. Qed.
Lemma py_one : forall A B (k : parser N A -> parser N B) e (g : mparser A), keeps k -> pays (S e) g -> pays e (m_one k g).
Proof.
  intros A B k e g K H inp off L Ho. specialize (H inp off L Ho). unfold m_one. destruct (g inp off) as [o m]. cbn [fst snd up cnt] in *.
  destruct (k (fun _ _ => o) inp off) as [v d|er c| |] eqn:E; [destruct (K _ _ _ _ _ E) as [x ->]; lia|..]; (destruct o; lia).
Qed.
Definition sep_ok {B} (s : option (mparser B)) : Prop := match s with Some h => upto a h /\ inward h | None => True end.
Lemma py_loop : forall A B (g : mparser A) (s : option (mparser B)), pays a g -> sep_ok s ->
  forall fuel rend inp cur items all m, length inp = n -> cur <= n -> cnt (snd (m_loop fuel g s rend inp cur items all m)) <= cnt m + a + pot inp cur.
Proof.
  intros A B g s H S0. induction fuel as [|fuel IH]; intros rend inp cur items all m L Hc; cbn [m_loop]; [cbn [snd]; lia|].
  destruct (rep_stop rend (length items)); [cbn [snd]; lia|].
  assert (E : forall cur' all m, cur' <= n -> cnt (snd (let '(o, m1) := g inp cur' in
      match o with
      | Success v k => m_loop fuel g s rend inp (cur' + k) (v :: items) (all + k) (both m m1)
      | Failure _ _ => (RDone (rev items) all, both m m1)
      | Panic => (Comb.RPanic, both m m1)
      | Diverge => (Comb.RDiverge, both m m1)
      end)) <= cnt m + pot inp cur').
  { intros cur' all' m' Hc'. specialize (H inp cur' L Hc'). destruct (g inp cur') as [[v k|er c| |] m1]; cbn [fst snd both cnt] in *; try lia.
    destruct H as (H1 & H2 & H3). specialize (IH rend inp (cur' + k) (v :: items) (all' + k) (both m' m1) L H1). cbn [both cnt] in IH. lia. }
  destruct s as [h|].
  - destruct S0 as [S1 S2]. specialize (S1 inp cur L Hc). specialize (S2 inp cur). destruct (h inp cur) as [[v k|er c| |] m1]; cbn [fst snd both cnt] in *; try lia.
    specialize (S2 v k L Hc eq_refl). specialize (E (cur + k) (all + k) (both m m1) S2). cbn [both cnt] in E. pose proof (@pot_le inp cur (cur + k) ltac:(lia)). lia.
  - specialize (E cur all m Hc). lia.
Qed.
Lemma py_rep : forall A B (g : mparser A) r (s : option (mparser B)), pays a g -> sep_ok s ->
  forall inp off, length inp = n -> off <= n -> cnt (snd (m_rep g r s inp off)) <= pot inp off + a + 1.
Proof.
  intros A B g r s H S0 inp off L Ho. unfold m_rep. pose proof (H inp off L Ho) as H0. destruct (g inp off) as [[v k|er c| |] m]; cbn [fst snd up cnt] in *; try lia.
  destruct H0 as (H1 & H2 & H3). pose proof (@py_loop A B g s H S0 (rep_fuel (rg_end r) inp off) (rg_end r) inp (off + k) [v] k m L H1) as K.
  destruct (m_loop _ g s _ inp (off + k) [v] k m) as [d m']. cbn [fst snd up cnt] in *. lia.
Qed.

(** ** Brackets *)
Definition opened (c : N) (inp : list N) (off s : nat) : Prop := off <= s /\ S s <= n /\ soc inp off = Success tt (s - off) /\ nth_error inp s = Some c.
Lemma opened_once : forall c c' inp off s s', opened c inp off s -> opened c' inp off s' -> c = c'.
Proof. intros c c' inp off s s' (H1 & _ & H2 & H3) (H1' & _ & H2' & H3'). rewrite H2 in H2'. injection H2' as E. replace s' with s in H3' by lia. congruence. Qed.
Definition failed {A} (o : outcome N A) : Prop := match o with Success _ _ => False | _ => True end.
Definition bracket {A} (c : N) (b : nat) (g : mparser A) : Prop := forall inp off, length inp = n -> off <= n ->
  cnt (snd (g inp off)) <= b /\ failed (fst (g inp off))
  \/ exists s, opened c inp off s /\ cnt (snd (g inp off)) <= b + pot inp (S s) /\ forall v d, fst (g inp off) = Success v d -> S s <= off + d <= n.
Lemma br_one : forall A B (k : parser N A -> parser N B) c b (g : mparser A), keeps k -> bracket c b g -> bracket c (S b) (m_one k g).
Proof.
  intros A B k c b g K H inp off L Ho. destruct (H inp off L Ho) as [[H1 H2]|(s & H1 & H2 & H3)]; unfold m_one; destruct (g inp off) as [o m]; cbn [fst snd up cnt] in *.
  - left. split; [lia|]. destruct (k (fun _ _ => o) inp off) as [v d|er e| |] eqn:E; try exact I. destruct (K _ _ _ _ _ E) as [x ->]. exact H2.
  - right. exists s. split; [exact H1|]. split; [lia|]. intros v d E. destruct (K _ _ _ _ _ E) as [x ->]. now apply (H3 x).
Qed.
Lemma br_le : forall A c b b' (g : mparser A), bracket c b g -> b <= b' -> bracket c b' g.
Proof.
  intros A c b b' g H Hb inp off L Ho. destruct (H inp off L Ho) as [[H1 H2]|(s & H1 & H2 & H3)]; [left; split; [lia|exact H2]|right; exists s; split; [exact H1|split; [lia|exact H3]]].
Qed.
Hypothesis U_soc : upto a msoc.
Hypothesis U_spaced : forall c, upto a (mf_spaced (m_elm_ref c)).
Lemma W_soc : within 0 msoc.
Proof. eapply wi_hoare; [apply ef_space_or_comment|apply h_soc|]. intros. lia. Qed.
Lemma W_spaced : forall A j (g : mparser A), within j g -> within j (mf_spaced g).
Proof. intros A j g H. unfold mf_spaced, m_surround. eapply wi_le; [apply wi_skip_left; [apply W_soc|apply wi_skip_right; [exact H|apply W_soc]]|lia]. Qed.
Lemma elm_ref_inv : forall c inp off x d, p_elm_ref c inp off = Success x d -> off < length inp /\ nth_error inp off = Some c /\ d = 1.
Proof.
  intros c inp off x d F. unfold p_elm_ref, p_elm_ref_eq, p_elm_pred_ref, ps_input, slice_from in F. destruct (off <=? length inp); [|discriminate].
  destruct (skipn off inp) as [|y t] eqn:G; [discriminate|]. destruct (y =? c)%N eqn:Q; [|discriminate]. inv F. apply N.eqb_eq in Q. subst.
  assert (E : nth_error inp off = Some c).
  { rewrite <- (firstn_skipn off inp), G. assert (H : length (firstn off inp) = off).
    { rewrite firstn_length. apply Nat.min_l. assert (K := f_equal (@length N) G). rewrite skipn_length in K. cbn in K. lia. }
    rewrite nth_error_app2, H, Nat.sub_diag by lia. reflexivity. }
  split; [apply nth_error_Some; congruence|]. split; [exact E|reflexivity].
Qed.
Lemma spaced_opens : forall c inp off x d, length inp = n -> off <= n -> fst (mf_spaced (m_elm_ref c) inp off) = Success x d -> exists s, opened c inp off s /\ S s <= off + d.
Proof.
  intros c inp off x d L Ho E. rewrite (ef_spaced (er_elm_ref c) inp off) in E. destruct (@soc_succeeds inp off ltac:(lia)) as (k & Ek & Hk).
  rewrite (@spaced_eq _ _ _ _ _ Ek) in E. unfold p_skip_right in E. destruct (p_elm_ref c inp (off + k)) as [y i|er b| |] eqn:Ee; try discriminate.
  destruct (@elm_ref_inv _ _ _ _ _ Ee) as (H1 & H2 & ->). destruct (soc inp (off + k + 1)) as [y2 i2|er b| |]; try discriminate. injection E as E1 E2.
  exists (off + k). split; [|lia]. repeat split; [lia|lia| |exact H2]. rewrite Ek. f_equal. lia.
Qed.
Lemma br_group : forall A B C c (g : mparser A) (h : mparser B) (z : mparser C), pays a g -> upto a h -> inward h -> upto a z -> inward z ->
  inward (m_many0_sep g h) -> bracket c (3 * a + 3) (m_surround (mf_spaced (m_elm_ref c)) (m_many0_sep g h) z).
Proof.
  intros A B C c g h z G H1 H2 Z1 Z2 I0 inp off L Ho. unfold m_surround, m_skip_left, m_skip_right, m_two. pose proof (@U_spaced c inp off L Ho) as U. pose proof (@spaced_opens c inp off) as O.
  pose proof (@iw_within _ _ _ (W_spaced (wi_elm_pred_ref (fun x => (x =? c)%N))) inp off) as W. fold (m_elm_ref c) in W.
  destruct (mf_spaced (m_elm_ref c) inp off) as [[x d|er b| |] m]; cbn [fst snd up cnt both] in *; try (left; split; [lia|exact I]).
  right. destruct (O x d L Ho eq_refl) as (s & Hs & Hd). specialize (W x d L Ho eq_refl). exists s. split; [exact Hs|].
  pose proof (@py_rep A B g (rg_from 0) (Some h) G (conj H1 H2) inp (off + d) L W) as P. fold (m_many0_sep g h) in P. specialize (I0 inp (off + d)).
  pose proof (@pot_le inp (S s) (off + d) Hd) as Q.
  destruct (m_many0_sep g h inp (off + d)) as [[y e|er b| |] m2]; cbn [fst snd up cnt both] in *; try (split; [lia|intros v i E; discriminate]).
  specialize (I0 y e L W eq_refl). specialize (Z1 inp (off + d + e) L I0). specialize (Z2 inp (off + d + e)).
  destruct (z inp (off + d + e)) as [[y2 e2|er b| |] m3]; cbn [fst snd up cnt both] in *; try (split; [lia|intros v i E; discriminate]).
  specialize (Z2 y2 e2 L I0 eq_refl). split; [lia|]. intros v i E. injection E as E1 E2. lia.
Qed.

(** Where layout ends, more layout ends at once, unless a comment was passed. *)
Lemma soc_again : forall inp off k, length inp = n -> off <= n -> soc inp off = Success tt k ->
  off + k <= n /\ (soc inp (off + k) = Success tt 0 \/ (1 <= k /\ S (marks (skipn (off + k) inp)) <= marks (skipn off inp))).
Proof.
  intros inp off k L Ho E. rewrite <- (firstn_skipn off inp) in E. assert (F : length (firstn off inp) = off) by (rewrite firstn_length; lia). pose proof E as E0. rewrite <- F in E0 at 3.
  destruct (@rd_soc_exact _ _ _ _ E0) as (g & r & Eg & Lg & Hc & [Hw|(u & c & -> & h & t & x & -> & Hh & _)]).
  - assert (Er : inp = (firstn off inp ++ g) ++ r) by (rewrite <- app_assoc, <- Eg; symmetry; apply firstn_skipn).
    assert (Ek : off + k = length (firstn off inp ++ g)) by (rewrite app_length; lia).
    split; [rewrite Er in L; rewrite app_length in L; lia|]. left. rewrite Ek. rewrite Er at 1.
    assert (Hs : solid r) by (destruct r; [exact I|split; [exact Hw|exact Hc]]). exact (@skips_nil r Hs (firstn off inp ++ g)).
  - assert (Ls : length (skipn off inp) = n - off) by (rewrite skipn_length; lia). rewrite Eg in Ls. repeat rewrite app_length in Ls; repeat rewrite app_length in Lg. cbn [length] in Ls, Lg.
    split; [lia|]. right. split; [lia|]. rewrite <- skipn_skipn', Eg. replace k with (length (u ++ h ++ t ++ [x])) by (rewrite !app_length; cbn [length]; lia).
    rewrite skipn_app, skipn_all, Nat.sub_diag. cbn [skipn]. rewrite app_nil_l, !marks_app. destruct Hh as [-> | ->]; cbn; lia.
Qed.

(** ** The recursive parsers *)
Hypothesis U_key : upto a mf_key_p.
Hypothesis W_key : within 1 mf_key_p.
Hypothesis U_kv : upto a mf_kv.
Hypothesis U_comma : upto a (m_opt mf_comma).
Hypothesis U_ref : upto a (m_attempt (mf_reference_cv D)).
Hypothesis W_ref : within 1 (mf_reference_cv D).
Hypothesis U_simple : upto a (m_attempt (mf_simple_cv dec)).
Hypothesis W_simple : within 1 (mf_simple_cv dec).
Hypothesis U_enum : upto a (mf_enumeration_cv D).
Hypothesis W_enum : within 1 (mf_enumeration_cv D).
Hypothesis U_incl : upto a (m_attempt (m_many1 (mf_include_cv D))).

Section Recursion.
Variable value : mparser cv.
Variable prop : mparser (key * cv).
Hypothesis P_value : pays (S a) value.
Hypothesis P_prop : pays (S a) prop.
Hypothesis W_value : within 1 value.
Hypothesis W_prop : within 1 prop.
Lemma keeps_lazy : forall A, keeps (fun p : parser N A => p_lazy (fun _ => p)).
Proof. intros A. one_out. Qed.
Lemma keeps_map : forall A B (f : A -> B), keeps (fun p : parser N A => p_map p f).
Proof. intros A B f. one_out. Qed.
Lemma keeps_attempt : forall A, keeps (fun p : parser N A => p_attempt p).
Proof. intros A. one_out. Qed.
Lemma wi_lazy : forall A j (g : mparser A), within j g -> within j (m_lazy g).
Proof. intros A j g H. apply wi_one; [apply keeps_lazy|exact H]. Qed.
Lemma W_char : forall c, within 1 (m_elm_ref c).
Proof. intros c. apply wi_elm_pred_ref. Qed.
Lemma W_comma : within 1 mf_comma.
Proof. apply W_spaced, W_char. Qed.
Lemma br_array : bracket (chr "[") (3 * a + 5) (mf_array_cv value).
Proof.
  unfold mf_array_cv. eapply br_le; [apply br_one; [apply keeps_map|apply br_group]|lia]; [apply py_one; [apply keeps_lazy|exact P_value]|apply U_spaced|exact (iw_within W_comma)|apply U_spaced| |].
  - exact (iw_within (W_spaced (W_char _))).
  - eapply iw_within, wi_many1_sep; [apply wi_lazy, W_value|apply W_comma].
Qed.
Lemma br_object : bracket (chr "{") (3 * a + 5) (mf_object_cv prop).
Proof.
  unfold mf_object_cv, m_id. eapply br_le; [apply br_one; [apply keeps_map|apply br_one; [apply keeps_map|apply br_group]]|lia];
    [apply py_one; [apply keeps_lazy|exact P_prop]|exact U_comma|exact (iw_within (wi_opt W_comma))|apply U_spaced| |].
  - exact (iw_within (W_spaced (W_char _))).
  - eapply iw_within, wi_many1_sep; [apply wi_lazy, W_prop|exact (wi_opt W_comma)].
Qed.
Lemma wi_array : within 1 (mf_array_cv value).
Proof.
  unfold mf_array_cv. apply wi_map. eapply wi_le; [unfold m_surround; apply wi_skip_left; [apply W_spaced, W_char|apply wi_skip_right; [eapply wi_many1_sep; [apply wi_lazy, W_value|apply W_comma]|apply W_spaced, W_char]]|lia].
Qed.
Lemma wi_object : within 1 (mf_object_cv prop).
Proof.
  unfold mf_object_cv, m_id. apply wi_map, wi_map. eapply wi_le; [unfold m_surround; apply wi_skip_left; [apply W_spaced, W_char|apply wi_skip_right; [eapply wi_many1_sep; [apply wi_lazy, W_prop|eapply wi_opt, W_comma]|apply W_spaced, W_char]]|lia].
Qed.

(** The alternatives of a value: at most one bracket is opened, where the layout before it ends. *)
Definition alternatives : mparser cv :=
  m_or (m_or (m_or (m_or (m_attempt (mf_array_cv value)) (m_attempt (mf_object_cv prop))) (m_attempt (mf_reference_cv D))) (m_attempt (mf_simple_cv dec)))
    (mf_enumeration_cv D).
Definition once {A} (b : nat) (g : mparser A) : Prop := forall inp off, length inp = n -> off <= n ->
  cnt (snd (g inp off)) <= b \/ exists s c, opened c inp off s /\ is_mark c = true /\ cnt (snd (g inp off)) <= b + pot inp (S s).
Lemma on_brackets : forall A c1 c2 b1 b2 (g h : mparser A), bracket c1 b1 g -> bracket c2 b2 h -> c1 <> c2 -> is_mark c1 = true -> is_mark c2 = true -> once (S (b1 + b2)) (m_or g h).
Proof.
  intros A c1 c2 b1 b2 g h H1 H2 Hn M1 M2 inp off L Ho. destruct (H1 inp off L Ho) as [[G1 _]|(s & O & G1 & _)]; destruct (H2 inp off L Ho) as [[G2 _]|(s2 & O2 & G2 & _)];
    unfold m_or; destruct (g inp off) as [[v d|er [|]| |] m]; destruct (h inp off) as [o2 m2]; cbn [fst snd cnt up both] in *;
    first [left; lia | right; exists s, c1; (split; [exact O|split; [exact M1|lia]]) | right; exists s2, c2; (split; [exact O2|split; [exact M2|lia]]) | exfalso; apply Hn; exact (opened_once O O2)].
Qed.
Lemma on_or : forall A b b' (g h : mparser A), once b g -> upto b' h -> once (S (b + b')) (m_or g h).
Proof.
  intros A b b' g h H1 H2 inp off L Ho. specialize (H2 inp off L Ho). destruct (H1 inp off L Ho) as [G1|(s & c & O & M & G1)];
    unfold m_or; destruct (g inp off) as [[v d|er [|]| |] m]; destruct (h inp off) as [o2 m2]; cbn [fst snd cnt up both] in *;
    first [left; lia | right; exists s, c; (split; [exact O|split; [exact M|lia]])].
Qed.
Lemma on_alternatives : once (9 * a + 16) alternatives.
Proof.
  unfold alternatives. replace (9 * a + 16) with (S (S (S (S (S (3 * a + 5) + S (3 * a + 5)) + a) + a) + a)) by lia.
  repeat (apply on_or; [|assumption]). apply on_brackets with (c1 := chr "[") (c2 := chr "{"); [apply br_one; [apply keeps_attempt|apply br_array]|apply br_one; [apply keeps_attempt|apply br_object]|discriminate|reflexivity|reflexivity].
Qed.
Lemma wi_alternatives : within 1 alternatives.
Proof.
  unfold alternatives. eapply wi_le; [repeat (apply wi_or; [|first [exact W_enum | apply wi_attempt; eassumption]])|]; [apply wi_or; apply wi_attempt; [apply wi_array|apply wi_object]|cbn; lia].
Qed.
Lemma mark_bracket : forall c inp off s, opened c inp off s -> is_mark c = true -> 2 * pot inp (S s) + 2 * unit_cost <= pot inp off.
Proof. intros c inp off s (H1 & H2 & _ & H3) M. now apply pot_at with (c := c). Qed.
Lemma msoc_eq : forall inp off, length inp = n -> off <= n -> exists k, fst (msoc inp off) = Success tt k /\ soc inp off = Success tt k /\ off + k <= n.
Proof. intros inp off L Ho. destruct (@soc_succeeds inp off ltac:(lia)) as (k & E & Hk). exists k. rewrite (ef_space_or_comment inp off). repeat split; [exact E|exact E|lia]. Qed.
Lemma py_value : pays (S a) (mf_value_step dec value prop).
Proof.
  intros inp off L Ho. unfold mf_value_step. fold alternatives. unfold mf_spaced, m_surround, m_skip_left, m_skip_right, m_two.
  pose proof (@U_soc inp off L Ho) as U1. destruct (@msoc_eq inp off L Ho) as (k & E1 & E2 & Hk). destruct (msoc inp off) as [o1 m1]. cbn [fst snd] in E1, U1. rewrite E1.
  pose proof (@on_alternatives inp (off + k) L Hk) as O. pose proof (@iw_within _ _ _ wi_alternatives inp (off + k)) as W. pose proof (@wi_alternatives (S n) inp (off + k)) as W1.
  destruct (alternatives inp (off + k)) as [o m]. cbn [fst snd] in *.
  pose proof (pot_pos inp off) as P0. pose proof (@pot_le inp off (off + k) ltac:(lia)) as P1.
  (* where a bracket is opened, both what it reads and what follows are paid *)
  assert (K : cnt m <= 9 * a + 16 \/ exists q, cnt m <= 9 * a + 16 + q /\ q + 2 * unit_cost <= pot inp off /\ forall d, 1 <= d -> q + pot inp (off + k + d) + unit_cost <= pot inp off).
  { destruct O as [O|(s & c & O & M & C)]; [now left|]. right. exists (pot inp (S s)). split; [exact C|].
    pose proof (mark_bracket O M) as PB. destruct O as (O1 & O2 & O3 & O4). split; [lia|]. intros d Hd.
    destruct (@soc_again inp off k L Ho E2) as [_ [Z|[Z1 Z2]]].
    - rewrite O3 in Z. injection Z as Z. replace s with (off + k) in * by lia. pose proof (@pot_le inp (S (off + k)) (off + k + d) ltac:(lia)). lia.
    - pose proof (@pot_mark inp off (off + k) ltac:(lia) Hk Z2) as PM. pose proof (@pot_le inp (off + k) (S s) ltac:(lia)). pose proof (@pot_le inp (off + k) (off + k + d) ltac:(lia)). lia. }
  unfold unit_cost in *.
  destruct o as [v d|er b| |]; [|destruct K as [K|(q & K1 & K2 & _)]; cbn [fst snd cnt up both p_skip_right p_skip_left]; lia..].
  destruct (W1 v d ltac:(lia) ltac:(lia) eq_refl) as [_ Hd]. specialize (W v d L Hk eq_refl).
  pose proof (@U_soc inp (off + k + d) L W) as U2. destruct (@msoc_eq inp (off + k + d) L W) as (k2 & E3 & _ & Hk2). destruct (msoc inp (off + k + d)) as [o2 m2]. cbn [fst snd] in E3, U2. rewrite E3.
  cbn [fst snd cnt up both p_skip_right p_skip_left].
  pose proof (@pot_le inp (off + k + d) (off + (k + (d + k2))) ltac:(lia)) as P2. pose proof (@pot_step inp off (off + k + d) ltac:(lia) W) as P3. unfold unit_cost in P3.
  split; [lia|]. split; [lia|]. destruct K as [K|(q & K1 & _ & K2)]; [lia|]. specialize (K2 d Hd). lia.
Qed.

(** After the sign of an assignment no bracket is opened at the place of the sign. *)
Lemma kv_closed : forall inp off u d, length inp = n -> off <= n -> fst (mf_kv inp off) = Success u d -> off + d <= n /\ 1 <= d /\ forall c s, opened c inp off s -> is_mark c = false.
Proof.
  intros inp off u d L Ho E. rewrite (ef_kv inp off) in E. unfold kv, p_discard in E.
  destruct (p_elm_ref_of (set_contains (bs "=:")) inp off) as [x k|er b| |] eqn:F; try discriminate. injection E as <- <-.
  unfold p_elm_ref_of, p_elm_pred_ref, ps_input, slice_from in F. destruct (off <=? length inp); [|discriminate]. destruct (skipn off inp) as [|y t] eqn:G; [discriminate|].
  destruct (set_contains (bs "=:") y) eqn:Q; [|discriminate]. injection F as <- <-. assert (K := f_equal (@List.length N) G). rewrite skipn_length in K. cbn in K.
  split; [lia|]. split; [lia|]. intros c s (H1 & H2 & H3 & H4).
  assert (Y : y = 61%N \/ y = 58%N) by (unfold set_contains in Q; apply existsb_exists in Q; destruct Q as (z & [<-|[<-|[]]] & Z); apply N.eqb_eq in Z; auto).
  assert (Hs : solid (y :: t)) by (destruct Y as [-> | ->]; cbn; repeat split; try discriminate; intros [Z|[Z|[Z|[Z|[]]]]]; discriminate).
  assert (Ls : length (firstn off inp) = off) by (rewrite firstn_length; lia).
  pose proof (@skips_nil (y :: t) Hs (firstn off inp)) as Z. rewrite app_nil_l, <- G, firstn_skipn, Ls, H3 in Z. injection Z as Z. replace s with off in H4 by lia.
  rewrite <- (firstn_skipn off inp), G, nth_error_app2, Ls, Nat.sub_diag in H4 by lia. injection H4 as <-. destruct Y as [-> | ->]; reflexivity.
Qed.
Definition body : mparser cv := m_or (m_or (m_attempt (m_skip_left mf_kv (m_lazy value))) (m_attempt (mf_object_cv prop))) (mf_array_cv value).
Lemma no_bracket : forall A c b (g : mparser A) inp off, bracket c b g -> length inp = n -> off <= n -> (forall s, ~ opened c inp off s) -> cnt (snd (g inp off)) <= b /\ failed (fst (g inp off)).
Proof. intros A c b g inp off H L Ho Hn. destruct (H inp off L Ho) as [K|(s & O & _)]; [exact K|]. now apply Hn in O. Qed.
Lemma body_cost : forall inp off, length inp = n -> off <= n ->
  match fst (body inp off) with
  | Success _ d => off + d <= n /\ 1 <= d /\ cnt (snd (body inp off)) + pot inp (off + d) <= pot inp off + (7 * a + 18)
  | _ => cnt (snd (body inp off)) <= pot inp off + (7 * a + 18)
  end.
Proof.
  intros inp off L Ho. unfold body. assert (HO : bracket (chr "{") (S (3 * a + 5)) (m_attempt (mf_object_cv prop))) by (apply br_one; [apply keeps_attempt|apply br_object]). pose proof br_array as HA.
  assert (R : (match fst (m_attempt (m_skip_left mf_kv (m_lazy value)) inp off) with
    | Success _ d => off + d <= n /\ 1 <= d /\ cnt (snd (m_attempt (m_skip_left mf_kv (m_lazy value)) inp off)) + pot inp (off + d) <= pot inp off + (a + 3)
    | _ => cnt (snd (m_attempt (m_skip_left mf_kv (m_lazy value)) inp off)) <= pot inp off + (a + 3) end /\ forall c s, opened c inp off s -> is_mark c = false)
    \/ (cnt (snd (m_attempt (m_skip_left mf_kv (m_lazy value)) inp off)) <= a + 3 /\ failed (fst (m_attempt (m_skip_left mf_kv (m_lazy value)) inp off)))).
  { unfold m_attempt, m_skip_left, m_one, m_two, m_lazy. pose proof (@U_kv inp off L Ho) as U. pose proof (@kv_closed inp off) as K.
    destruct (mf_kv inp off) as [[x d|er b| |] m]; cbn [fst snd cnt up both] in *; [|right; split; [lia|destruct b; exact I]|right; split; [lia|exact I]..].
    left. destruct (K x d L Ho eq_refl) as (K1 & K2 & K3). split; [|exact K3]. pose proof (@pot_step inp off (off + d) ltac:(lia) K1) as PS. pose proof (@P_value inp (off + d) L K1) as P. unfold m_one.
    destruct (value inp (off + d)) as [[y e|er b| |] m2]; cbn [fst snd cnt up both p_lazy p_skip_left p_attempt] in *; [|unfold p_attempt, with_uncommitted; destruct b; cbn [fst snd cnt up both]; lia|unfold p_attempt, with_uncommitted; lia..].
    unfold p_attempt, with_uncommitted. destruct P as (Q1 & Q2 & Q3). rewrite <- Nat.add_assoc in Q1. replace (off + d + e) with (off + (d + e)) in Q3 by lia. split; [lia|]. split; lia. }
  destruct R as [[R C]|[R F]].
  - pose proof (@no_bracket _ _ _ _ inp off HO L Ho (fun s O => eq_true_false_abs _ eq_refl (C _ s O))) as [NO1 NO2].
    pose proof (@no_bracket _ _ _ _ inp off HA L Ho (fun s O => eq_true_false_abs _ eq_refl (C _ s O))) as [NA1 NA2].
    unfold m_or. destruct (m_attempt (m_skip_left mf_kv (m_lazy value)) inp off) as [[v d|er [|]| |] m]; cbn [fst snd cnt up both] in *; try lia.
    destruct (m_attempt (mf_object_cv prop) inp off) as [[v d|er2 [|]| |] m2]; cbn [fst snd cnt up both failed] in *; try lia; try contradiction.
    destruct (mf_array_cv value inp off) as [[v d|er3 [|]| |] m3]; cbn [fst snd cnt up both failed] in *; try lia; try contradiction.
  - assert (W1 := @iw_within _ _ _ (wi_attempt wi_object) inp off). assert (W2 := @iw_within _ _ _ wi_array inp off).
    destruct (HO inp off L Ho) as [[O1 O2]|(s & O1 & O2 & O3)]; destruct (HA inp off L Ho) as [[A1 A2]|(s' & A1 & A2 & A3)].
    + unfold m_or. destruct (m_attempt (m_skip_left mf_kv (m_lazy value)) inp off) as [[v d|er [|]| |] m]; cbn [fst snd cnt up both failed] in *; try lia; try contradiction.
      destruct (m_attempt (mf_object_cv prop) inp off) as [[v d|er2 [|]| |] m2]; cbn [fst snd cnt up both failed] in *; try lia; try contradiction.
      destruct (mf_array_cv value inp off) as [[v d|er3 [|]| |] m3]; cbn [fst snd cnt up both failed] in *; try lia; try contradiction.
    + pose proof (@mark_bracket _ _ _ _ A1 eq_refl) as MB. unfold m_or. destruct (m_attempt (m_skip_left mf_kv (m_lazy value)) inp off) as [[v d|er [|]| |] m]; cbn [fst snd cnt up both failed] in *; try lia; try contradiction.
      destruct (m_attempt (mf_object_cv prop) inp off) as [[v d|er2 [|]| |] m2]; cbn [fst snd cnt up both failed] in *; try lia; try contradiction.
      destruct (mf_array_cv value inp off) as [[v d|er3 [|]| |] m3]; cbn [fst snd cnt up both failed] in *; try lia; try contradiction.
      destruct (A3 v d eq_refl) as [D1 D2]. pose proof (@pot_le inp (S s') (off + d) D1). destruct A1. lia.
    + pose proof (@mark_bracket _ _ _ _ O1 eq_refl) as MB. unfold m_or. destruct (m_attempt (m_skip_left mf_kv (m_lazy value)) inp off) as [[v d|er [|]| |] m]; cbn [fst snd cnt up both failed] in *; try lia; try contradiction.
      destruct (m_attempt (mf_object_cv prop) inp off) as [[v d|er2 [|]| |] m2]; cbn [fst snd cnt up both failed] in *; try lia.
      * destruct (O3 v d eq_refl) as [D1 D2]. pose proof (@pot_le inp (S s) (off + d) D1). destruct O1. lia.
      * destruct (mf_array_cv value inp off) as [[v d|er3 [|]| |] m3]; cbn [fst snd cnt up both failed] in *; try lia; try contradiction.
    + discriminate (opened_once O1 A1).
Qed.
Lemma py_property : pays (S a) (mf_property_step value prop).
Proof.
  intros inp off L Ho. unfold mf_property_step. fold body. unfold m_and, m_two. pose proof (@U_key inp off L Ho) as U. pose proof (@W_key (S n) inp off) as W.
  pose proof (pot_pos inp off) as P0. unfold unit_cost in P0. destruct (mf_key_p inp off) as [[x d|er b| |] m]; cbn [fst snd cnt up both p_and] in *; try lia.
  destruct (W x d ltac:(lia) ltac:(lia) eq_refl) as [W1 W2]. rewrite L in W1. pose proof (@body_cost inp (off + d) L W1) as B. pose proof (@pot_step inp off (off + d) ltac:(lia) W1) as P1. unfold unit_cost in P1.
  destruct (body inp (off + d)) as [[y e|er b| |] m2]; cbn [fst snd cnt up both p_and] in *; [|lia..].
  destruct B as (B1 & B2 & B3). rewrite Nat.add_assoc. lia.
Qed.
(** An object or an array of the top level. *)
Lemma py_group : pays a (m_or (m_attempt (mf_object_cv prop)) (mf_array_cv value)).
Proof.
  intros inp off L Ho. assert (HO : bracket (chr "{") (S (3 * a + 5)) (m_attempt (mf_object_cv prop))) by (apply br_one; [apply keeps_attempt|apply br_object]). pose proof br_array as HA.
  pose proof (pot_pos inp off) as P0. unfold unit_cost in P0. unfold m_or.
  destruct (HO inp off L Ho) as [[O1 O2]|(s & O1 & O2 & O3)]; destruct (HA inp off L Ho) as [[A1 A2]|(s' & A1 & A2 & A3)].
  - destruct (m_attempt (mf_object_cv prop) inp off) as [[v d|er2 [|]| |] m2]; cbn [fst snd cnt up both failed] in *; try lia; try contradiction.
    destruct (mf_array_cv value inp off) as [[v d|er3 [|]| |] m3]; cbn [fst snd cnt up both failed] in *; try lia; try contradiction.
  - pose proof (@mark_bracket _ _ _ _ A1 eq_refl) as MB. unfold unit_cost in MB.
    destruct (m_attempt (mf_object_cv prop) inp off) as [[v d|er2 [|]| |] m2]; cbn [fst snd cnt up both failed] in *; try lia; try contradiction.
    destruct (mf_array_cv value inp off) as [[v d|er3 [|]| |] m3]; cbn [fst snd cnt up both failed] in *; try lia; try contradiction.
    destruct (A3 v d eq_refl) as [D1 D2]. pose proof (@pot_le inp (S s') (off + d) D1). destruct A1. lia.
  - pose proof (@mark_bracket _ _ _ _ O1 eq_refl) as MB. unfold unit_cost in MB.
    destruct (m_attempt (mf_object_cv prop) inp off) as [[v d|er2 [|]| |] m2]; cbn [fst snd cnt up both failed] in *; try lia.
    + destruct (O3 v d eq_refl) as [D1 D2]. pose proof (@pot_le inp (S s) (off + d) D1). destruct O1. lia.
    + destruct (mf_array_cv value inp off) as [[v d|er3 [|]| |] m3]; cbn [fst snd cnt up both failed] in *; try lia; try contradiction.
  - discriminate (opened_once O1 A1).
Qed.
Lemma config_cost : forall inp off, length inp = n -> off <= n -> cnt (snd (mf_config_step value prop inp off)) <= 2 * pot inp off + (3 * a + 8).
Proof.
  intros inp off L Ho. unfold mf_config_step.
  pose proof (@py_rep _ unit (m_id (mf_property_step value prop)) (rg_from 1) None (py_one (keeps_map (fun x => x)) py_property) I inp off L Ho) as H1. fold (m_many1 (m_id (mf_property_step value prop))) in H1.
  pose proof (@U_incl inp off L Ho) as H2. pose proof (@py_rep _ unit _ (rg_from 0) None py_group I inp off L Ho) as H3. fold (m_many0 (m_or (m_attempt (mf_object_cv prop)) (mf_array_cv value))) in H3.
  set (q := m_many1 (m_id (mf_property_step value prop))) in *. set (r := m_attempt (m_many1 (mf_include_cv D))) in *. set (t := m_many0 _) in *.
  unfold m_or, m_attempt, m_map, m_one. destruct (q inp off) as [[v d|er [|]| |] m]; unfold p_attempt, p_map, with_uncommitted; cbn [fst snd cnt up both] in *; try lia.
  - destruct (r inp off) as [[v d|er2 [|]| |] m2]; cbn [fst snd cnt up both] in *; try lia. destruct (t inp off) as [o3 m3]; cbn [fst snd cnt up both] in *. lia.
  - destruct (r inp off) as [[v d|er2 [|]| |] m2]; cbn [fst snd cnt up both] in *; try lia. destruct (t inp off) as [o3 m3]; cbn [fst snd cnt up both] in *. lia.
Qed.
Lemma wi_value : within 1 (mf_value_step dec value prop).
Proof. unfold mf_value_step. fold alternatives. apply W_spaced, wi_alternatives. Qed.
Lemma wi_property : within 1 (mf_property_step value prop).
Proof.
  unfold mf_property_step. eapply wi_le; [apply wi_and; [exact W_key|apply wi_or; [apply wi_or; [apply wi_attempt, wi_skip_left with (j := 0); [|apply wi_lazy, W_value]|apply wi_attempt, wi_object]|apply wi_array]]|lia].
  unfold mf_kv. eapply wi_le; [apply wi_one; [one_out|apply wi_elm_ref_of]|lia].
Qed.
End Recursion.
Lemma fuel_pays : forall fuel, (pays (S a) (mf_value_fuel dec fuel) /\ pays (S a) (mf_property_fuel dec fuel)) /\ within 1 (mf_value_fuel dec fuel) /\ within 1 (mf_property_fuel dec fuel).
Proof.
  induction fuel as [|fuel ([IH1 IH2] & IH3 & IH4)].
  - split; split; [intros inp off L Ho; cbn [mf_value_fuel mf_property_fuel fst snd cnt]; pose proof (pot_pos inp off); unfold unit_cost in *; lia..|intros i inp off v k _ _ E; discriminate E|intros i inp off v k _ _ E; discriminate E].
  - split; split; [intros inp off; apply py_value; assumption|intros inp off; apply py_property; assumption| |].
    + intros i inp off v k. apply (@wi_value _ _ IH3 IH4 i inp off v k).
    + intros i inp off v k. apply (@wi_property _ _ IH3 IH4 i inp off v k).
Qed.
Theorem hocon_cost : forall inp, length inp = n -> cnt (snd (mf_hocon_p dec inp 0)) <= 3 * pot inp 0.
Proof.
  intros inp L. unfold mf_hocon_p, mf_hocon_fuel, m_skip_right, m_skip_left, m_two, m_leaf.
  destruct (fuel_pays (S (length inp))) as ([P1 P2] & W1 & W2). pose proof (@U_soc inp 0 L ltac:(lia)) as U. destruct (@msoc_eq inp 0 L ltac:(lia)) as (k & E & _ & Hk).
  destruct (msoc inp 0) as [o m]. cbn [fst snd] in E, U. rewrite E. pose proof (@config_cost _ _ P1 P2 W1 W2 inp (0 + k) L Hk) as C. pose proof (@pot_le inp 0 (0 + k) ltac:(lia)) as Q.
  pose proof (pot_pos inp 0) as P0. unfold unit_cost in P0.
  destruct (mf_config_step _ _ inp (0 + k)) as [[v d|er b| |] m2]; cbn [fst snd cnt up both p_skip_left p_skip_right] in *; lia.
Qed.
End Count.

(** ** Every text *)
Section Texts.
Variable D : Type.
Variable dec : list N -> option D.
Definition atom_cost (n : nat) : nat := 704 * (S n * S n).
Lemma atom_linear : forall A a b (g : mparser A) n, rest a b g -> a <= 704 -> b <= 704 -> upto n (atom_cost n) g.
Proof.
  intros A a b g n R Ha Hb inp off L Ho. specialize (R inp off ltac:(lia)). unfold atom_cost. rewrite L in R.
  assert (a * (n - off) <= 704 * n) by (apply Nat.mul_le_mono; lia). assert (704 * n + 704 <= 704 * (S n * S n)) by nia. lia.
Qed.
Lemma atom_times : forall A a b (g : mparser A) r n, within 1 g -> rest a b g -> a <= 700 -> b <= 700 -> forall B (k : parser N (list A) -> parser N B), upto n (atom_cost n) (m_one k (m_rep g r (None : option (mparser unit)))).
Proof.
  intros A a b g r n W R Ha Hb B k inp off L Ho. pose proof (@many_times A a b g r W R inp off ltac:(lia)) as H. unfold m_one. destruct (m_rep g r None inp off) as [o m]. cbn [fst snd up cnt] in *.
  unfold atom_cost. rewrite L in H. assert (a * n + b <= 700 * S n) by nia. assert (S n * (a * n + b) <= S n * (700 * S n)) by (apply Nat.mul_le_mono_l; assumption). nia.
Qed.
Theorem hocon_calls : forall text, cnt (snd (mf_hocon_p dec text 0)) <= 48 * 704 * S (length text) ^ 3 * 2 ^ marks text.
Proof.
  intros text. set (n := length text). assert (B : forall A a b (g : mparser A), rest a b g -> a <= 704 -> b <= 704 -> upto n (atom_cost n) g) by (intros; eapply atom_linear; eassumption).
  assert (H : cnt (snd (mf_hocon_p dec text 0)) <= 3 * pot n (atom_cost n) text 0).
  { apply hocon_cost; try reflexivity.
    - unfold atom_cost. nia.
    - apply (B _ _ _ _ re_soc); lia.
    - intros c. apply (B _ _ _ _ (re_char c)); lia.
    - apply (B _ _ _ _ re_key); lia.
    - apply wi_key.
    - apply (B _ _ _ _ re_kv); lia.
    - apply (B _ _ _ _ re_opt_comma); lia.
    - apply (B _ _ _ _ (re_one _ (@re_reference D))); lia.
    - apply wi_reference.
    - apply (B _ _ _ _ (re_one _ (re_simple dec))); lia.
    - apply wi_simple.
    - unfold mf_enumeration_cv, m_map, m_many1. fold (m_joined D). eapply atom_times; [apply wi_joined|apply re_joined|lia|lia].
    - apply wi_enumeration.
    - unfold m_attempt, m_many1. eapply atom_times; [apply wi_include|apply re_include|lia|lia]. }
  etransitivity; [exact H|]. unfold pot, unit_cost, atom_cost. cbn [skipn]. rewrite Nat.sub_0_r. fold n. generalize (2 ^ marks text). intros x.
  replace (S n ^ 3) with (S n * S n * S n) by (cbn [Nat.pow]; lia). apply Nat.eq_le_incl. generalize (S n). intros y. ring.
Qed.
End Texts.
