(** How long the hocon parser takes: the closures it calls (Measure.v), and documents on which they double with every four characters. *)
From Verif Require Import Base Core Comb Closure RepFacts LitFacts Hoare Runs Weak Agree Text Json JsonSpec JsonFacts Hocon HoconFacts HoconParse HoconSpec HoconComplete Measure.
Set Implicit Arguments.
Local Open Scope string_scope.
Local Open Scope nat_scope.
Local Open Scope list_scope.

(** ** The parsers of hocon/src/parsers.rs with their calls.  A parser that does not contain lazy (keys, brackets, layout, references, scalars)
    counts as one closure, so that the true numbers are larger. *)
Section Measured.
Variable D : Type.
Variable dec : list N -> option D.
Notation cv := (cv D).
Notation key := (list N).
(** hocon/src/parsers.rs 17-19: surround (parser/src/internal/parsers_impl/skip_parser_impl.rs) with space_or_comment on both sides *)
Definition mh_spaced {A} (g : mparser A) : mparser A := m_surround (m_leaf space_or_comment) g (m_leaf space_or_comment).
Section Recursion.
Variable value : mparser cv.
Variable prop : mparser (key * cv).
(** hocon/src/parsers.rs 170-181, 263-265 *)
Definition mh_array : mparser cv :=
  m_map (m_surround (m_leaf (spaced (p_elm_ref (chr "[")))) (m_many0_sep (m_lazy value) (m_leaf comma)) (m_leaf (spaced (p_elm_ref (chr "]"))))) CArr.
(** hocon/src/parsers.rs 199-227, 259-261 *)
Definition mh_object : mparser cv :=
  m_map (m_surround (m_leaf (spaced (p_elm_ref (chr "{")))) (m_many0_sep (m_lazy prop) (m_leaf (p_opt comma))) (m_leaf (spaced (p_elm_ref (chr "}")))))
    (fun ps => CObj (obj_fold ps)).
(** hocon/src/parsers.rs 191-197 *)
Definition mh_property : mparser (key * cv) :=
  m_and (m_leaf key_p) (m_or (m_or (m_attempt (m_skip_left (m_leaf kv) (m_lazy value))) (m_attempt mh_object)) mh_array).
(** hocon/src/parsers.rs 294-301 *)
Definition mh_value : mparser cv :=
  mh_spaced (m_or (m_or (m_or (m_or (m_attempt mh_array) (m_attempt mh_object)) (m_attempt (m_leaf (reference_cv D)))) (m_attempt (m_leaf (simple_cv dec))))
    (m_leaf (enumeration_cv D))).
(** hocon/src/parsers.rs 303-323 *)
Definition mh_config : mparser (list cv) :=
  m_or (m_or (m_attempt (m_map (m_many1 mh_property) (fun ps => [CObj (top_fold ps)]))) (m_attempt (m_many1 (m_leaf (include_cv D)))))
       (m_many0 (m_or (m_attempt mh_object) mh_array)).
End Recursion.
(** hocon/src/parsers.rs 179, 192, 212: the recursion through lazy, as in Hocon.v *)
Fixpoint mh_value_fuel (fuel : nat) (inp : list N) (off : nat) {struct fuel} : outcome N cv * meas :=
  match fuel with 0 => (Diverge, Meas 0 0) | S n => mh_value (mh_value_fuel n) (mh_property_fuel n) inp off end
with mh_property_fuel (fuel : nat) (inp : list N) (off : nat) {struct fuel} : outcome N (key * cv) * meas :=
  match fuel with 0 => (Diverge, Meas 0 0) | S n => mh_property (mh_value_fuel n) (mh_property_fuel n) inp off end.
(** hocon/src/parsers.rs 325-327 *)
Definition mh_hocon_fuel (fuel : nat) : mparser (list cv) :=
  m_skip_right (m_skip_left (m_leaf space_or_comment) (mh_config (mh_value_fuel fuel) (mh_property_fuel fuel))) (m_leaf p_end).
Definition mh_hocon : mparser (list cv) := fun inp off => mh_hocon_fuel (S (length inp)) inp off.

(** The outcomes are those of Hocon.v. *)
Lemma er_spaced : forall A (g : mparser A) p, erases g p -> erases (mh_spaced g) (spaced p).
Proof. intros A g p H. apply er_surround; [apply er_leaf|exact H|apply er_leaf]. Qed.
Section Er.
Variables (gv : mparser cv) (v : parser N cv) (gp : mparser (key * cv)) (p : parser N (key * cv)).
Hypothesis Ev : erases gv v.
Hypothesis Ep : erases gp p.
Lemma er_array : erases (mh_array gv) (array_cv v).
Proof. apply er_map, er_surround; [apply er_leaf|apply er_many0_sep; [now apply er_lazy|apply er_leaf]|apply er_leaf]. Qed.
Lemma er_object : erases (mh_object gp) (object_cv p).
Proof. apply er_map, er_surround; [apply er_leaf|apply er_many0_sep; [now apply er_lazy|apply er_leaf]|apply er_leaf]. Qed.
Lemma er_property : erases (mh_property gv gp) (property_step v p).
Proof.
  apply er_and; [apply er_leaf|]. repeat apply er_or; [apply er_attempt, er_skip_left; [apply er_leaf|now apply er_lazy]|apply er_attempt, er_object|apply er_array].
Qed.
Lemma er_value : erases (mh_value gv gp) (value_step dec v p).
Proof.
  apply er_spaced. repeat apply er_or; [apply er_attempt, er_array|apply er_attempt, er_object|apply er_attempt, er_leaf|apply er_attempt, er_leaf|apply er_leaf].
Qed.
Lemma er_config : erases (mh_config gv gp) (config_step v p).
Proof.
  repeat apply er_or; [apply er_attempt, er_map, er_many1, er_property|apply er_attempt, er_many1, er_leaf|apply er_many0, er_or; [apply er_attempt, er_object|apply er_array]].
Qed.
End Er.
Lemma er_fuel : forall n, erases (mh_value_fuel n) (value_fuel dec n) /\ erases (mh_property_fuel n) (property_fuel dec n).
Proof.
  induction n as [|n [IH1 IH2]]; [split; intros inp off; reflexivity|]. split; intros inp off.
  - exact (er_value IH1 IH2 inp off).
  - exact (er_property IH1 IH2 inp off).
Qed.
Lemma er_hocon : erases mh_hocon (hocon_p dec).
Proof.
  intros inp off. unfold mh_hocon, hocon_p, mh_hocon_fuel, hocon_fuel. destruct (er_fuel (S (length inp))) as [E1 E2].
  apply er_skip_right; [apply er_skip_left; [apply er_leaf|now apply er_config]|apply er_leaf].
Qed.

(** ** The documents: lines a={ *)
Definition line4 : list N := bs "a={" ++ [10%N].
Fixpoint opens (d : nat) : list N := match d with 0 => [] | S d' => line4 ++ opens d' end.
Lemma opens_length : forall d, length (opens d) = 4 * d.
Proof. induction d as [|d IH]; [reflexivity|]. cbn [opens]. rewrite app_length, IH. cbn. lia. Qed.
Lemma opens_solid : forall d, solid (opens d).
Proof. intros [|d]; [exact I|]. cbn [opens line4 bs app]. shd. Qed.
Notation val := (CStr (bs "{") : cv).
Notation vf := (value_fuel dec).
Notation pf := (property_fuel dec).
Notation inner d := (bs "{" ++ [10%N] ++ opens d).
Lemma inner_solid : forall d, solid (inner d).
Proof. intros d. cbn [bs app]. shd. Qed.
Lemma nl_skips : forall d, skips [10%N] (opens d).
Proof. intros d. apply skips_ws; [repeat constructor; cbn; tauto|apply opens_solid]. Qed.
(** An object that is not closed is read as the string "{" ... *)
Lemma a_val : forall n d, rej (object_cv (pf n)) (inner d) false -> acc (vf (S n)) (bs "{" ++ [10%N]) (opens d) val.
Proof.
  intros n d R. pose proof (inner_solid d) as Ss. change (bs "{" ++ [10%N]) with ([] ++ (bs "{" ++ [10%N]) ++ []). apply a_value; [now apply skips_nil| |apply skips_nil, opens_solid].
  unfold core. apply a_or1. apply a_or2.
  - repeat apply r_or; eapply r_attempt; [apply (@r_array D _ []); [now apply skips_nil|cbn; lia]|exact R|apply (@r_reference D []); [now apply skips_nil|cbn; lia]].
  - apply a_attempt. apply (@a_simple D dec [] (bs "{") [10%N]); [now apply skips_nil|apply nl_skips|]. apply a_or2.
    + destruct (@no_words D dec 123%N ([10%N] ++ opens d)) as (N1 & N2 & N3); [lits|]. apply r_before_string; [assumption|assumption|assumption|discriminate|unfold digit; cbn; lia|exact Ss].
    + apply a_map. apply a_bare_run; [repeat constructor; unfold stop_char; lits|discriminate|reflexivity|split; [unfold stop_char; cbn; tauto|discriminate]|exact Ss].
Qed.
Lemma a_key_a : forall d, acc key_p (bs "a") (bs "=" ++ inner d) (bs "a").
Proof.
  intros d. apply (@a_key (bs "a") (bs "a") [] []); [|apply skips_nil; cbn [app bs]; shd|apply skips_nil; cbn [app bs]; shd| |apply skips_nil; cbn [app bs]; shd].
  - left. split; [reflexivity|]. apply gp_one; [discriminate|repeat constructor; unfold letter; cbn; lia].
  - split; [unfold path_letter, letter; cbn; lia|discriminate].
Qed.
Lemma a_kv : forall rest, acc kv (bs "=") rest tt.
Proof. intros rest. eapply a_discard, a_elm_ref_of. reflexivity. Qed.
Lemma a_prop : forall n d, rej (object_cv (pf n)) (inner d) false -> acc (pf (S (S n))) line4 (opens d) (bs "a", val).
Proof.
  intros n d R. change (pf (S (S n))) with (property_step (vf (S n)) (pf (S n))). unfold property_step. change line4 with (bs "a" ++ bs "=" ++ bs "{" ++ [10%N]).
  eapply a_and; [exact (a_key_a d)|]. apply a_or1, a_or1, a_attempt. eapply a_skip_left; [apply a_kv|apply a_lazy; exact (a_val _ _ R)].
Qed.
(** ... and what follows it is read again. *)
Lemma opt_none : forall d, acc (p_opt comma) [] (opens d) None.
Proof. intros d. apply (@opt_comma_none [] (opens d)); [apply skips_nil, opens_solid|]. destruct d; [exact I|cbn; lia]. Qed.
Lemma sch_props : forall n d, (forall d', d' < d -> acc (pf n) line4 (opens d') (bs "a", val)) -> schain (p_lazy (fun _ => pf n)) (p_opt comma) (opens d) [] (repeat (bs "a", val) d).
Proof.
  intros n. induction d as [|d IH]; intros H; [constructor|]. cbn [repeat opens]. change (line4 ++ opens d) with ([] ++ line4 ++ opens d).
  econstructor; [|apply a_lazy; rewrite app_nil_r; apply H; lia|discriminate|apply IH; intros d' L; apply H; lia]. rewrite app_nil_r. exact (opt_none (S d)).
Qed.
Lemma r_opens : forall d n, 2 * d < n -> rej (object_cv (pf n)) (inner d) false.
Proof.
  induction d as [d IH] using lt_wf_ind. intros n L. unfold object_cv. apply r_map. unfold p_surround.
  assert (A : forall d', d' < d -> acc (pf n) line4 (opens d') (bs "a", val)).
  { intros d' L'. destruct n as [|[|n]]; [lia|lia|]. apply a_prop, IH; lia. }
  assert (R0 : rej (p_lazy (fun _ => pf n)) [] false).
  { apply r_lazy. destruct n as [|n]; [lia|]. exact (r_prop_end (vf n) (pf n)). }
  assert (M : acc (p_many0_sep (p_lazy (fun _ => pf n)) (p_opt comma)) (opens d) [] (repeat (bs "a", val) d)).
  { destruct d as [|d]; [eapply a_repeat_sep_none; exact R0|]. cbn [opens repeat]. rewrite <- (app_nil_r (opens d)).
    eapply a_repeat_sep_dangling; [| |apply (opt_none 0)|exact R0|lia].
    - rewrite !app_nil_r. apply a_lazy, A. lia.
    - cbn [app]. apply sch_props. intros d' L'. apply A. lia. }
  change (inner d) with (([] ++ bs "{" ++ [10%N]) ++ opens d).
  eapply r_skip_left2; [apply a_spaced; [apply skips_nil, inner_solid|apply a_elm_ref|apply nl_skips]|].
  rewrite <- (app_nil_r (opens d)). eapply r_skip_right2; [exact M|apply r_spaced0; [exact I|now apply r_elm_ref]].
Qed.

(** ** The calls *)
(** At least [c] calls on the text [l], wherever it stands. *)
Definition mcost {A} (g : mparser A) (l : list N) (c : nat) : Prop := forall pre, c <= cnt (snd (g (pre ++ l) (length pre))).
Lemma mc_zero : forall A (g : mparser A) l, mcost g l 0.
Proof. intros A g l pre. apply Nat.le_0_l. Qed.
Lemma mc_one : forall A B (k : parser N A -> parser N B) g l c, mcost g l c -> mcost (m_one k g) l (S c).
Proof. intros A B k g l c H pre. specialize (H pre). unfold m_one. destruct (g (pre ++ l) (length pre)). cbn in *. lia. Qed.
Lemma mc_two1 : forall A B C (k : parser N A -> parser N B -> parser N C) g h l c, mcost g l c -> mcost (m_two k g h) l (S c).
Proof.
  intros A B C k g h l c H pre. specialize (H pre). unfold m_two. destruct (g (pre ++ l) (length pre)) as [[v n|e b| |] m]; try (cbn in *; lia).
  destruct (h (pre ++ l) (length pre + n)). cbn in *. lia.
Qed.
Lemma mc_two : forall A B C (k : parser N A -> parser N B -> parser N C) g h p s rest v c, erases g p -> acc p s rest v -> mcost h rest c -> mcost (m_two k g h) (s ++ rest) (S c).
Proof.
  intros A B C k g h p s rest v c E H H2 pre. specialize (H pre). specialize (E (pre ++ s ++ rest) (length pre)). rewrite H in E. unfold m_two.
  destruct (g (pre ++ s ++ rest) (length pre)) as [o m]. cbn [fst] in E. subst o. specialize (H2 (pre ++ s)). rewrite app_length, <- app_assoc in H2.
  destruct (h (pre ++ s ++ rest) (length pre + length s)). cbn in *. lia.
Qed.
Lemma mc_or1 : forall A (g h : mparser A) l c, mcost g l c -> mcost (m_or g h) l (S c).
Proof.
  intros A g h l c H pre. specialize (H pre). unfold m_or. destruct (g (pre ++ l) (length pre)) as [[v n|e [|]| |] m]; try (cbn in *; lia).
  destruct (h (pre ++ l) (length pre)). cbn in *. lia.
Qed.
Lemma mc_or2 : forall A (g h : mparser A) p l c, erases g p -> rej p l false -> mcost h l c -> mcost (m_or g h) l (S c).
Proof.
  intros A g h p l c E R H pre. destruct (R pre) as [e Ee]. specialize (E (pre ++ l) (length pre)). rewrite Ee in E. specialize (H pre). unfold m_or.
  destruct (g (pre ++ l) (length pre)) as [o m]. cbn [fst] in E. subst o. destruct (h (pre ++ l) (length pre)). cbn in *. lia.
Qed.
Lemma loop_le : forall A B (g : mparser A) (s : option (mparser B)) fuel rend inp cur items all m, cnt m <= cnt (snd (m_loop fuel g s rend inp cur items all m)).
Proof.
  intros A B g s. induction fuel as [|fuel IH]; intros rend inp cur items all m; cbn [m_loop]; [apply le_n|]. destruct (rep_stop rend (length items)); [apply le_n|].
  assert (E : forall c a m0, cnt m0 <= cnt (snd (let '(o, m1) := g inp c in
      match o with
      | Success v n => m_loop fuel g s rend inp (c + n) (v :: items) (a + n) (both m0 m1)
      | Failure _ _ => (RDone (rev items) a, both m0 m1)
      | Panic => (Comb.RPanic, both m0 m1)
      | Diverge => (Comb.RDiverge, both m0 m1)
      end))).
  { intros c a m0. destruct (g inp c) as [[v n|e b| |] m1]; [|cbn; lia..]. etransitivity; [|apply IH]. cbn. lia. }
  destruct s as [h|]; [|apply E]. destruct (h inp cur) as [[v n|e b| |] m1]; [|cbn; lia..]. etransitivity; [|apply E]. cbn. lia.
Qed.
Lemma mc_rep1 : forall A B (g : mparser A) r (s : option (mparser B)) l c, mcost g l c -> mcost (m_rep g r s) l (S c).
Proof.
  intros A B g r s l c H pre. specialize (H pre). unfold m_rep. destruct (g (pre ++ l) (length pre)) as [[v n|e b| |] m]; try (cbn in *; lia).
  pose proof (loop_le g s (rep_fuel (rg_end r) (pre ++ l) (length pre)) (rg_end r) (pre ++ l) (length pre + n) [v] n m) as L.
  destruct (m_loop _ g s _ _ _ _ _ m). cbn in *. lia.
Qed.
(** The properties of an object, one after the other. *)
Notation mpf := (mh_property_fuel).
Lemma loop_props : forall n d fuel pre items all m, d < fuel -> (forall d', d' < d -> acc (pf n) line4 (opens d') (bs "a", val) /\ mcost (mpf n) (line4 ++ opens d') (2 ^ d')) ->
  cnt m + 2 ^ d <= S (cnt (snd (m_loop fuel (m_lazy (mpf n)) (Some (m_leaf (p_opt comma))) BUnbounded (pre ++ opens d) (length pre) items all m))).
Proof.
  intros n. induction d as [|d IH]; intros fuel pre items all m L H.
  - cbn [Nat.pow]. pose proof (loop_le (m_lazy (mpf n)) (Some (m_leaf (p_opt comma))) fuel BUnbounded (pre ++ opens 0) (length pre) items all m). lia.
  - destruct fuel as [|fuel]; [lia|]. cbn [m_loop rep_stop]. pose proof (opt_none (S d) pre) as O. unfold m_leaf at 1. cbn [app length] in O. rewrite O. cbn [opens]. rewrite Nat.add_0_r.
    destruct (H d (Nat.lt_succ_diag_r d)) as [A C]. specialize (A pre). specialize (C pre). unfold m_lazy at 1, m_one at 1.
    destruct (er_fuel n) as [_ E]. specialize (E (pre ++ line4 ++ opens d) (length pre)). rewrite A in E.
    destruct (mpf n (pre ++ line4 ++ opens d) (length pre)) as [o m1]. cbn [fst snd] in E, C. subst o. cbn [p_lazy].
    rewrite (app_assoc pre), <- app_length. etransitivity; [|apply IH; [lia|intros d' L'; apply H; lia]]. cbn [both up cnt Nat.pow]. lia.
Qed.
Lemma mc_le : forall A (g : mparser A) l c d, mcost g l c -> d <= c -> mcost g l d.
Proof. intros A g l c d H L pre. specialize (H pre). lia. Qed.
Lemma rep_props : forall n d, (forall d', d' < d -> acc (pf n) line4 (opens d') (bs "a", val) /\ mcost (mpf n) (line4 ++ opens d') (2 ^ d')) ->
  mcost (m_many0_sep (m_lazy (mpf n)) (m_leaf (p_opt comma))) (opens d) (2 ^ d).
Proof.
  intros n [|d] H; [apply mc_rep1, mc_zero|]. intros pre. unfold m_many0_sep, m_rep. cbn [opens].
  destruct (H d (Nat.lt_succ_diag_r d)) as [A C]. specialize (A pre). specialize (C pre). unfold m_lazy at 1, m_one at 1.
  destruct (er_fuel n) as [_ E]. specialize (E (pre ++ line4 ++ opens d) (length pre)). rewrite A in E.
  destruct (mpf n (pre ++ line4 ++ opens d) (length pre)) as [o m1]. cbn [fst snd] in E, C. subst o. cbn [p_lazy].
  assert (F : d < rep_fuel (rg_end (rg_from 0)) (pre ++ line4 ++ opens d) (length pre)).
  { cbn [rg_end rg_from]. unfold rep_fuel. rewrite !app_length, opens_length. lia. }
  rewrite (app_assoc pre) at 2. replace (length pre + length line4) with (length (pre ++ line4)) by apply app_length.
  pose proof (@loop_props n d _ (pre ++ line4) [(bs "a", val)] (length line4) (up m1) F (fun d' L' => H d' (Nat.lt_lt_succ_r _ _ L'))) as P.
  cbn [rg_end rg_from] in *. destruct (m_loop _ _ _ _ _ _ _ _ (up m1)) as [r m2]. cbn [fst snd up cnt Nat.pow] in *. lia.
Qed.
Lemma mc_prop : forall n d, rej (object_cv (pf n)) (inner d) false -> mcost (mh_object (mpf n)) (inner d) (2 ^ d) -> mcost (mpf (S (S n))) (line4 ++ opens d) (2 ^ d).
Proof.
  intros n d R C. destruct (er_fuel n) as [Ev Ep]. pose proof (inner_solid d) as Ss.
  assert (V : mcost (mh_value_fuel (S n)) (inner d) (2 ^ d)).
  { change (mh_value_fuel (S n)) with (mh_value (mh_value_fuel n) (mpf n)). unfold mh_value, mh_spaced, m_surround.
    eapply mc_le; [change (inner d) with ([] ++ inner d); eapply mc_two; [apply er_leaf|apply skips_nil, Ss|]|apply le_S, le_n].
    eapply mc_le; [apply mc_two1|apply le_S, le_n]. do 3 (eapply mc_le; [apply mc_or1|apply le_S, le_n]).
    eapply mc_le; [eapply mc_or2; [apply er_attempt, er_array, Ev|eapply r_attempt; apply (@r_array D _ []); [now apply skips_nil|cbn; lia]|]|apply le_S, le_n].
    eapply mc_le; [apply mc_one, C|apply le_S, le_n]. }
  change (mpf (S (S n))) with (mh_property (mh_value_fuel (S n)) (mpf (S n))). unfold mh_property. change (line4 ++ opens d) with (bs "a" ++ bs "=" ++ inner d).
  eapply mc_le; [eapply mc_two; [apply er_leaf|apply a_key_a|]|apply le_S, le_n]. do 2 (eapply mc_le; [apply mc_or1|apply le_S, le_n]).
  eapply mc_le; [apply mc_one|apply le_S, le_n]. eapply mc_le; [eapply mc_two; [apply er_leaf|apply a_kv|]|apply le_S, le_n]. eapply mc_le; [apply mc_one, V|apply le_S, le_n].
Qed.
Lemma mc_opens : forall d n, 2 * d < n -> mcost (mh_object (mpf n)) (inner d) (2 ^ d).
Proof.
  induction d as [d IH] using lt_wf_ind. intros n L. unfold mh_object, m_surround.
  eapply mc_le; [apply mc_one|apply le_S, le_n]. change (inner d) with (([] ++ bs "{" ++ [10%N]) ++ opens d).
  eapply mc_le; [eapply mc_two; [apply er_leaf|apply a_spaced; [apply skips_nil, inner_solid|apply a_elm_ref|apply nl_skips]|]|apply le_S, le_n].
  eapply mc_le; [apply mc_two1|apply le_S, le_n]. apply rep_props. intros d' L'. destruct n as [|[|n]]; [lia|lia|].
  split; [apply a_prop, r_opens; lia|apply mc_prop; [apply r_opens; lia|apply IH; lia]].
Qed.

(** ** Documents *)
Lemma hocon_calls : forall d, 2 ^ d <= cnt (snd (mh_hocon (opens (S d)) 0)).
Proof.
  intros d. unfold mh_hocon, mh_hocon_fuel. rewrite opens_length. replace (S (4 * S d)) with (S (S (4 * d + 3))) by lia. set (n := 4 * d + 3).
  assert (C : mcost (m_skip_right (m_skip_left (m_leaf space_or_comment) (mh_config (mh_value_fuel (S (S n))) (mpf (S (S n))))) (m_leaf (@p_end N))) (opens (S d)) (2 ^ d)); [|exact (C [])].
  eapply mc_le; [apply mc_two1|apply le_S, le_n]. change (opens (S d)) with ([] ++ opens (S d)).
  eapply mc_le; [eapply mc_two; [apply er_leaf|apply skips_nil, opens_solid|]|apply le_S, le_n]. unfold mh_config.
  do 2 (eapply mc_le; [apply mc_or1|apply le_S, le_n]). do 2 (eapply mc_le; [apply mc_one|apply le_S, le_n]). eapply mc_le; [apply mc_rep1|apply le_S, le_n].
  change (mh_property (mh_value_fuel (S (S n))) (mpf (S (S n)))) with (mpf (S (S (S n)))). cbn [opens]. apply mc_prop; [apply r_opens; unfold n; lia|apply mc_opens; unfold n; lia].
Qed.
Lemma fold_opens : forall d, top_fold (repeat (bs "a", val) (S d)) = [(bs "a", val)].
Proof. intros d. unfold top_fold. cbn [repeat fold_left]. change (top_insert [] (bs "a", val)) with [(bs "a", val)]. induction d as [|d IH]; [reflexivity|]. cbn [repeat fold_left]. exact IH. Qed.
Lemma hocon_reads : forall d, hocon_p dec (opens (S d)) 0 = Success [CObj [(bs "a", val)]] (length (opens (S d))).
Proof.
  intros d. unfold hocon_p. change (opens (S d)) with ([] ++ [] ++ opens (S d)). apply doc_run; [|apply skips_nil, opens_solid]. cbn [app].
  set (n := length (opens (S d))). assert (Ln : n = 4 * S d) by apply opens_length. unfold config_step. apply a_or1, a_or1, a_attempt. eapply a_map_eq with (v := repeat (bs "a", val) (S d)); [|now rewrite fold_opens].
  eapply a_many1; [|apply r_prop_end|discriminate]. clearbody n. assert (G : forall e, e <= S d -> chain (property_step (vf (S n)) (pf (S n))) (opens e) [] (repeat (bs "a", val) e)).
  { induction e as [|e IH]; intros L; [constructor|]. cbn [opens repeat]. constructor; [|discriminate|apply IH; lia]. rewrite app_nil_r.
    change (property_step (vf (S n)) (pf (S n))) with (pf (S (S n))). apply a_prop, r_opens. lia. }
  now apply G.
Qed.
End Measured.
