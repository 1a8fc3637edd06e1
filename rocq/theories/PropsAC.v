(** C51, C69 and C70 continued: lookup along any path, several dotted keys, and which lines of a HOCON document define the key they begin with. *)
From Verif Require Import PropsH PropsQ.
From Verif Require Import Base Core Comb Closure RepFacts LitFacts Hoare Runs Weak Agree Text Json JsonSpec JsonFacts Hocon HoconFacts HoconParse HoconLookup HoconResolve
  HoconRefs HoconDots HoconSpec HoconComplete.
Set Implicit Arguments.
Local Open Scope string_scope.
Local Open Scope nat_scope.
Local Open Scope list_scope.

(** The names of units that the parser knows, and the longest of them at the beginning of a text. *)
Definition unit_names : list (list N * time_unit) :=
  [(bs "ns", UNanos); (bs "nano", UNanos); (bs "us", UMicros); (bs "micro", UMicros); (bs "ms", UMillis); (bs "milli", UMillis);
   (bs "s", USeconds); (bs "m", UMinutes); (bs "h", UHours); (bs "d", UDays)].
Definition begins_with_unit (w : list N) (u : time_unit) (t : list N) : Prop :=
  In (w, u) unit_names /\ forall w' u' r, In (w', u') unit_names -> w ++ t = w' ++ r -> length w' <= length w.
Lemma a_unit_name : forall w u t, begins_with_unit w u t -> acc time_unit_p w t u.
Proof.
  intros w u t [Hin Hl]. unfold unit_names in Hin. cbn [In] in Hin.
  assert (G : forall n, nth_error unit_words n = Some (w, u) ->
    (forall w' u', In (w', u') (firstn n unit_words) -> ~ prefix w' (w ++ t)) -> acc time_unit_p w t u).
  { intros n Hn Hp. apply acc_units with (before := firstn n unit_words) (after := skipn (S n) unit_words); [|exact Hp].
    destruct (nth_error_split _ _ Hn) as (l1 & l2 & E & <-). rewrite E. rewrite firstn_app, Nat.sub_diag, firstn_all, app_nil_r.
    change (S (length l1)) with (1 + length l1). rewrite <- (skipn_O ((w, u) :: l2)) at 1. cbn [skipn]. f_equal.
    change ((w, u) :: l2) with ([(w, u)] ++ l2). rewrite app_assoc. replace (1 + length l1) with (length (l1 ++ [(w, u)]) + 0) by (rewrite app_length; cbn; lia).
    rewrite skipn_app. replace (length (l1 ++ [(w, u)]) + 0 - length (l1 ++ [(w, u)])) with 0 by lia. rewrite skipn_all2 by lia. reflexivity. }
  assert (K : forall w' u' r, In (w', u') unit_words -> w ++ t = w' ++ r -> length w' <= length w).
  { intros w' u' r H' E. apply (Hl w' u' r); [|exact E]. cbn in H' |- *. tauto. }
  repeat (destruct Hin as [Hin|Hin]); try contradiction; injection Hin as <- <-;
  [apply (G 0)|apply (G 1)|apply (G 2)|apply (G 3)|apply (G 4)|apply (G 5)|apply (G 6)|apply (G 7)|apply (G 8)|apply (G 9)]; try reflexivity;
  intros w' u' H' [r E]; (assert (H2 : In (w', u') unit_words) by (cbn in H' |- *; tauto)); pose proof (K _ _ _ H2 E) as L; cbn in H';
  repeat (destruct H' as [H'|H']; [injection H' as <- <-; try discriminate E; cbn in L; lia|]); contradiction.
Qed.

(** The lines of a root before the text [f], one member each. *)
Section Lines.
Variable D : Type.
Variable dec : list N -> option D.
Inductive lines (f : list N) : list N -> list (list N * cv D) -> Prop :=
| ln_nil : lines f [] []
| ln_more : forall m g t k v ps, gap g -> (exists x, In x g /\ newline x) -> hmember dec m g (t ++ f) k v -> lines f t ps ->
    lines f (m ++ g ++ t) ((k, v) :: ps).

Lemma lines_solid : forall f t ps, lines f t ps -> solid f -> solid (t ++ f).
Proof. intros f t ps H Hf. destruct H as [|m g t k v ps Hg Hn Hm Ht]; [exact Hf|]. rewrite <- app_assoc. exact (hmember_solid _ Hm). Qed.
Lemma lines_chain : forall f t ps rest qs N, lines f t ps -> solid f ->
  (forall n b, N <= n -> skips b f -> chain (property_step (value_fuel dec n) (property_fuel dec n)) (b ++ f) rest qs) ->
  forall n a, length t + N <= n -> rest = [] -> skips a (t ++ f) ->
  chain (property_step (value_fuel dec n) (property_fuel dec n)) (a ++ t ++ f) rest (ps ++ qs).
Proof.
  destruct (complete dec) as (_ & _ & _ & _ & _ & Cm). intros f t ps rest qs N H Hf Q.
  induction H as [|m g t k v ps Hg Hnl Hm Ht IH]; intros n a Hn -> Ha; [apply Q; [cbn in Hn; lia|exact Ha]|].
  rewrite <- !app_assoc in Ha.
  destruct (member_run (Cm _ _ _ _ _ Hm) Hg (lines_solid Ht Hf) (n := S n) (a := a)) as (h1 & h2 & -> & S2 & A); [rewrite app_length in Hn; lia|exact Ha|].
  change (property_fuel dec (S n)) with (property_step (value_fuel dec n) (property_fuel dec n)) in A.
  replace (a ++ (m ++ (h1 ++ h2) ++ t) ++ f) with ((a ++ m ++ h1) ++ (h2 ++ t ++ f)) by (now rewrite <- !app_assoc). cbn [app]. constructor.
  - rewrite app_nil_r. exact A.
  - apply app_ne2. destruct (hmember_hd Hm) as (x & t' & -> & _). discriminate.
  - apply IH; [rewrite !app_length in Hn; lia|reflexivity|exact S2].
Qed.

(** A number, and layout and the name of a unit behind it, whatever comes next. *)
Lemma c_val_dur : forall s w t g f d u, g_unsigned s -> dec s = Some d -> ws w -> begins_with_unit t u (g ++ f) -> c_val dec (s ++ w ++ t) g f (CDur d u).
Proof.
  intros s w t g f d u Hs Hd Hw Hu. apply val_simple.
  - destruct (g_unsigned_hd Hs) as (x & t' & -> & Hx). exists x, (t' ++ w ++ t). split; [reflexivity|now apply not_digit_hd].
  - intros a g1 g2 -> (S1 & S2 & W & Sf) Ha. left.
    assert (Et : exists x r, t = x :: r /\ letter x /\ x <> 101%N /\ x <> 69%N).
    { destruct Hu as [Hin _]. cbn in Hin. repeat (destruct Hin as [E|Hin]; [injection E as <- <-; do 2 eexists; split; [reflexivity|]; unfold letter; split; [lia|split; discriminate]|]). contradiction. }
    destruct Et as (x & r & Et & Hx & X1 & X2).
    assert (St : forall l, solid (t ++ l)) by (intros l; rewrite Et; cbn [app]; apply solid_letter; now left).
    destruct (@a_hnumber D dec s w (t ++ g1 ++ g2 ++ f) Hs) as (y & Ay & Ey).
    { apply ws_no_num; [exact Hw|]. rewrite Et. cbn. unfold letter, digit in *. split; [lia|]. intros [<-|[<-|[<-|[]]]]; lia. }
    { apply skips_ws; [exact Hw|apply St]. }
    destruct (g_unsigned_hd Hs) as (z & s' & Es & Hz).
    apply a_simple; [exact Ha|exact S1|]. apply a_or1, a_or1, a_or2.
    + rewrite <- !app_assoc, Es. destruct (@no_words D dec z (s' ++ w ++ t ++ g1 ++ g2 ++ f)) as (N1 & N2 & N3); [|now apply r_words].
      unfold digit in Hz. cbn. lia.
    + apply a_attempt. unfold duration_value. eapply a_map_eq with (v := (d, u)); [|reflexivity]. unfold duration. rewrite app_assoc. eapply a_and.
      * eapply a_map_panic; [exact Ay|now rewrite Ey].
      * apply a_unit_name. rewrite <- app_assoc in Hu. exact Hu.
Qed.
Lemma swallow : forall a b ps k kt w1 c w2 s d g w u t qs, gap a -> g_key k kt -> block w1 -> c = bs "=" \/ c = bs ":" -> gap w2 ->
  g_unsigned s -> dec s = Some d -> ws g -> begins_with_unit w u t -> hroot dec t qs ->
  let f := (kt ++ w1 ++ c ++ w2 ++ s) ++ g ++ w ++ t in lines f b ps -> NoDup (map fst ps ++ k :: map fst qs) ->
  hocon_p dec (a ++ b ++ f) 0 = Success [CObj (ps ++ (k, CDur d u) :: qs)] (length (a ++ b ++ f)).
Proof.
  intros a b ps k kt w1 c w2 s d g w u t qs Ha Hk H1 Hc H2 Hs Hd Hg Hu Ht f Hb Nd.
  assert (Sf : solid f) by (unfold f; rewrite <- !app_assoc; exact (key_solid _ Hk)).
  destruct (g_unsigned_hd Hs) as (z & s' & Es & Hz).
  assert (M : c_member dec (kt ++ w1 ++ c ++ w2 ++ (s ++ g ++ w)) [] t k (CDur d u)).
  { apply kv_ok; try assumption; [rewrite Es; cbn [app]; now apply solid_digit|]. apply c_val_dur; try assumption. }
  assert (Ef : f = (kt ++ w1 ++ c ++ w2 ++ (s ++ g ++ w)) ++ t) by (unfold f; now rewrite <- !app_assoc).
  assert (Q : forall n y, length f <= n -> skips y f -> chain (property_step (value_fuel dec n) (property_fuel dec n)) (y ++ f) [] ((k, CDur d u) :: qs)).
  { intros n y Hn Hy. destruct (M (S n) y [] []) as [A|A].
    - rewrite Ef, app_length in Hn. lia.
    - reflexivity.
    - split; [|split; [|split; [constructor|]]]; try (apply skips_nil; cbn [app]); exact (hroot_hd Ht).
    - cbn [app]. rewrite <- Ef. exact Hy.
    - rewrite app_nil_r in A. cbn [app] in A. change (property_fuel dec (S n)) with (property_step (value_fuel dec n) (property_fuel dec n)) in A.
      rewrite Ef, app_assoc. constructor; [rewrite app_nil_r; exact A| |].
      + apply app_ne2. destruct (key_hd Hk) as (x & r & -> & _). discriminate.
      + apply (@root_chain _ _ _ _ Ht n []); [rewrite Ef, app_length in Hn; lia|apply skips_nil; exact (hroot_hd Ht)].
    - rewrite app_nil_r in A. cbn [app] in A. change (property_fuel dec (S n)) with (property_step (value_fuel dec n) (property_fuel dec n)) in A.
      rewrite Ef, app_assoc. constructor; [rewrite app_nil_r; exact A| |].
      + apply app_ne2. destruct (key_hd Hk) as (x & r & -> & _). discriminate.
      + apply (@root_chain _ _ _ _ Ht n []); [rewrite Ef, app_length in Hn; lia|apply skips_nil; exact (hroot_hd Ht)]. }
  unfold hocon_p. destruct (@gap_split _ _ Ha (lines_solid Hb Sf)) as (a1 & a2 & -> & S1 & S2 & W). rewrite <- app_assoc in *. apply doc_run; [|exact S1].
  unfold config_step. apply a_or1, a_or1, a_attempt. eapply a_map_eq with (v := ps ++ (k, CDur d u) :: qs); [|rewrite (top_fold_new dec) by (now rewrite map_app); reflexivity].
  eapply a_many1; [|apply r_prop_end|destruct ps; discriminate]. apply (@lines_chain f b ps [] ((k, CDur d u) :: qs) (length f)); try assumption; [rewrite !app_length; lia|reflexivity].
Qed.
End Lines.

(** ** C70: each line defines the key it begins with *)
Lemma hmember_no_link : forall D (dec : list N -> option D) m g f k v, hmember dec m g f k v -> forall p x, v <> CLink p x.
Proof.
  assert (O : forall D (dec : list N -> option D) s g f v, hobj dec s g f v -> forall p x, v <> CLink p x) by (intros D dec s g f v [] p x; discriminate).
  assert (A : forall D (dec : list N -> option D) s g f v, harr dec s g f v -> forall p x, v <> CLink p x) by (intros D dec s g f v [] p x; discriminate).
  intros D dec m g f k v H p x. destruct H as [k kt a c b s g f v _ _ _ _ H|k kt a s g f v _ _ H|k kt a s g f v _ _ H]; [|now apply (A _ _ _ _ _ _ H)|now apply (O _ _ _ _ _ _ H)].
  destruct H; try discriminate; [now apply (A _ _ _ _ _ _ H)|now apply (O _ _ _ _ _ _ H)].
Qed.
Lemma hroot_no_link : forall D (dec : list N -> option D) t ps, hroot dec t ps -> forall k v, In (k, v) ps -> forall p x, v <> CLink p x.
Proof.
  intros D dec t ps H. induction H as [m g k v _ Hm|m g t k v ps _ _ Hm _ IH]; intros k' v' [E|H']; try contradiction.
  - injection E as <- <-. exact (hmember_no_link Hm).
  - injection E as <- <-. exact (hmember_no_link Hm).
  - exact (IH _ _ H').
Qed.
Lemma lines_no_link : forall D (dec : list N -> option D) f t ps, lines dec f t ps -> forall k v, In (k, v) ps -> forall p x, v <> CLink p x.
Proof.
  intros D dec f t ps H. induction H as [|m g t k v ps _ _ Hm _ IH]; intros k' v' H'; [contradiction|]. destruct H' as [E|H'].
  - injection E as <- <-. exact (hmember_no_link Hm).
  - exact (IH _ _ H').
Qed.
Lemma root_loads : forall D (dec : list N -> option D) env files s ps n, hocon_p dec s 0 = Success [CObj ps] n -> (forall k, In k (map fst ps) -> no_dot k) ->
  Forall (fun kv => noref (snd kv)) ps -> exists m, forall fuel, m <= fuel -> parse_from_string dec env files fuel s = ROk (Some (CObj ps)).
Proof.
  intros D dec env files s ps n E Hk Hn. destruct (noref_settles dec env files (nr_obj Hn)) as [St _]. destruct (St (CObj ps)) as [m Em]. exists (S m).
  intros fuel Hf. unfold parse_from_string, parse_from_string_with. rewrite E. unfold resolve_stage0, resolve_stage1. destruct fuel as [|fuel]; [lia|].
  rewrite undot_nothing by exact Hk. cbn [rbind rmap fold_left]. rewrite Em by lia. reflexivity.
Qed.
Lemma root_lookup : forall D (ps : list (list N * cv D)) k, component k -> (forall k v, In (k, v) ps -> forall p x, v <> CLink p x) -> NoDup (map fst ps) ->
  get_value (CObj ps) k = ROk (hm_get ps k).
Proof.
  intros D ps k Hk Hl Nd. assert (Hne : [k] <> []) by discriminate.
  destruct (C51_lookup_partial (CObj ps) Hne (Forall_cons k Hk (Forall_nil _))) as (o & E & Ho). cbn [dotted] in E. rewrite E. f_equal.
  destruct (hm_get ps k) as [v|] eqn:Eg.
  - apply Ho. eapply reach_last; [exact Eg|]. right. split; [reflexivity|]. exact (Hl _ _ (get_in _ _ Eg)).
  - destruct o as [x|]; [|reflexivity]. pose proof (proj1 (Ho x) eq_refl) as R. inv R; [congruence|]. match goal with H : [] <> [] |- _ => now elim H end.
Qed.

(** In a text of the grammar of HoconSpec.v, where no number is followed by the name of a unit on the next line, each line defines its own key. *)
Theorem C70_own_key_partial : forall D (dec : list N -> option D) env files a t ps, gap a -> hroot dec t ps -> NoDup (map fst ps) ->
  Forall component (map fst ps) -> Forall (fun kv => noref (snd kv)) ps ->
  exists c n, (forall fuel, n <= fuel -> parse_from_string dec env files fuel (a ++ t) = ROk (Some c)) /\
    forall k v, In (k, v) ps -> get_value c k = ROk (Some v).
Proof.
  intros D dec env files a t ps Ha Ht Nd Hc Hn. pose proof (C99_documents_read_partial (hd_root Ha Ht Nd)) as E.
  destruct (@root_loads D dec env files _ _ _ E) as [m Em]; [|exact Hn|].
  { intros k Hk. apply component_no_dot. exact (proj1 (Forall_forall _ _) Hc _ Hk). }
  exists (CObj ps), m. split; [exact Em|]. intros k v H. rewrite root_lookup; [f_equal; now apply in_get| |exact (hroot_no_link Ht)|exact Nd].
  apply (proj1 (Forall_forall _ _) Hc). apply in_map_iff. now exists (k, v).
Qed.
(** If the line after a number begins with the name of a unit, the number becomes a duration and the line defines the rest of its key: after the lines [b],
    the line "[kt] = [s]" and the line [w ++ t], the latter defines what [t] alone would. *)
Theorem C70_swallowed : forall D (dec : list N -> option D) env files a b ps k kt w1 c w2 s d g w u t qs, gap a -> g_key k kt -> block w1 -> c = bs "=" \/ c = bs ":" -> gap w2 ->
  g_unsigned s -> dec s = Some d -> ws g -> (exists x, In x g /\ newline x) -> begins_with_unit w u t -> hroot dec t qs ->
  lines dec ((kt ++ w1 ++ c ++ w2 ++ s) ++ g ++ w ++ t) b ps -> NoDup (map fst ps ++ k :: map fst qs) ->
  Forall component (map fst ps ++ k :: map fst qs) -> Forall (fun kv => noref (snd kv)) (ps ++ qs) ->
  exists x n, (forall fuel, n <= fuel -> parse_from_string dec env files fuel (a ++ b ++ (kt ++ w1 ++ c ++ w2 ++ s) ++ g ++ w ++ t) = ROk (Some x)) /\
    get_value x k = ROk (Some (CDur d u)) /\ (forall k' v', In (k', v') (ps ++ qs) -> get_value x k' = ROk (Some v')) /\
    forall k', component k' -> ~ In k' (map fst ps ++ k :: map fst qs) -> has_path x k' = ROk false.
Proof.
  intros D dec env files a b ps k kt w1 c w2 s d g w u t qs Ha Hk H1 Hc H2 Hs Hd Hg _ Hu Ht Hb Nd Hcs Hn.
  set (f := (kt ++ w1 ++ c ++ w2 ++ s) ++ g ++ w ++ t) in *.
  pose proof (@swallow D dec a b ps k kt w1 c w2 s d g w u t qs Ha Hk H1 Hc H2 Hs Hd Hg Hu Ht Hb Nd) as E. cbn zeta in E. fold f in E.
  set (m := ps ++ (k, CDur d u) :: qs) in *.
  assert (Km : map fst m = map fst ps ++ k :: map fst qs) by (unfold m; now rewrite map_app).
  assert (Lm : forall k v, In (k, v) m -> forall p x, v <> CLink p x).
  { intros k' v' H. unfold m in H. apply in_app_or in H. destruct H as [H|[H|H]]; [now apply (lines_no_link Hb k')|injection H as <- <-; discriminate|now apply (hroot_no_link Ht k')]. }
  assert (Nm : NoDup (map fst m)) by (now rewrite Km).
  assert (G : forall k', component k' -> get_value (CObj m) k' = ROk (hm_get m k')) by (intros k' Hk'; now apply root_lookup).
  destruct (@root_loads D dec env files _ _ _ E) as [n En].
  { rewrite Km. intros k' Hk'. apply component_no_dot. exact (proj1 (Forall_forall _ _) Hcs _ Hk'). }
  { apply Forall_app in Hn. unfold m. apply Forall_app. split; [apply Hn|]. constructor; [constructor|apply Hn]. }
  assert (I : forall k' v', In (k', v') m -> get_value (CObj m) k' = ROk (Some v')).
  { intros k' v' H. rewrite G; [f_equal; now apply in_get|]. apply (proj1 (Forall_forall _ _) Hcs). rewrite <- Km. apply in_map_iff. now exists (k', v'). }
  exists (CObj m), n. split; [exact En|]. split; [|split].
  - apply I. unfold m. apply in_or_app. right. now left.
  - intros k' v' H. apply I. unfold m. apply in_app_or in H. apply in_or_app. destruct H as [H|H]; [now left|right; now right].
  - intros k' Hk' H. pose proof (C51_has_path (CObj m) k') as P. rewrite (G _ Hk') in P. rewrite <- Km in H. rewrite (proj2 (get_none m k') H) in P. exact P.
Qed.
Definition xenv : list N -> option (list N) := fun _ => None.
Lemma comp1 : forall s, s <> [] -> forallb is_ascii_alpha s = true -> component s.
Proof. intros s Hn H. split; [exact Hn|]. rewrite forallb_forall in H. apply Forall_forall. intros x Hx. left. now apply H. Qed.
Example C70_own_key_case : exists c n, (forall fuel, n <= fuel -> parse_from_string Some xenv xenv fuel (bs "a = 1" ++ lf ++ bs "b = true") = ROk (Some c)) /\
  get_value c (bs "a") = ROk (Some (CNum (bs "1"))) /\ get_value c (bs "b") = ROk (Some (CBool true)).
Proof.
  destruct (@C70_own_key_partial (list N) Some xenv xenv [] (bs "a = 1" ++ lf ++ bs "b = true") [(bs "a", CNum (bs "1")); (bs "b", CBool true)]) as (c & n & H & G).
  - exact gap0.
  - apply hr_more; [apply gapw, ws_lf|exists 10%N; split; [now left|now left]| |].
    + change (bs "a = 1") with (bs "a" ++ bs " " ++ bs "=" ++ bs " " ++ bs "1").
      apply hk_kv; [left; split; [reflexivity|now apply path1]|apply blockw, ws_sp|now left|apply gapw, ws_sp|].
      apply hv_num; [uns|reflexivity|cbn; unfold digit; intuition (discriminate || lia)|]. intros w Hw t E. cbn in Hw. repeat destruct Hw as [<-|Hw]; try easy; discriminate E.
    + change (bs "b = true") with ((bs "b" ++ bs " " ++ bs "=" ++ bs " " ++ bs "true") ++ []). apply hr_one; [exact block0|].
      apply hk_kv; [left; split; [reflexivity|now apply path1]|apply blockw, ws_sp|now left|apply gapw, ws_sp|]. constructor.
  - repeat constructor; cbn; intuition discriminate.
  - constructor; [now apply comp1|]. constructor; [now apply comp1|constructor].
  - repeat constructor.
  - exists c, n. split; [exact H|]. split; apply G; cbn; tauto.
Qed.
Example C70_swallowed_case : exists c n, (forall fuel, n <= fuel -> parse_from_string Some xenv xenv fuel (bs "x = true" ++ lf ++ bs "a = 1" ++ lf ++ bs "debug = true") = ROk (Some c)) /\
  get_value c (bs "a") = ROk (Some (CDur (bs "1") UDays)) /\ get_value c (bs "ebug") = ROk (Some (CBool true)) /\ has_path c (bs "debug") = ROk false.
Proof.
  destruct (@C70_swallowed (list N) Some xenv xenv [] ((bs "x" ++ bs " " ++ bs "=" ++ bs " " ++ bs "true") ++ lf ++ []) [(bs "x", CBool true)] (bs "a") (bs "a") (bs " ") (bs "=") (bs " ") (bs "1") (bs "1") lf (bs "d") UDays
    ((bs "ebug" ++ bs " " ++ bs "=" ++ bs " " ++ bs "true") ++ []) [(bs "ebug", CBool true)]) as (c & n & H & G & I & J).
  - exact gap0.
  - left. split; [reflexivity|now apply path1].
  - apply blockw, ws_sp.
  - now left.
  - apply gapw, ws_sp.
  - uns.
  - reflexivity.
  - exact ws_lf.
  - exists 10%N. split; [now left|now left].
  - split; [cbn; tauto|]. intros w' u' r H' E. cbn in H'. repeat (destruct H' as [H'|H']; [injection H' as <- <-; try discriminate E; cbn; lia|]). contradiction.
  - apply hr_one; [exact block0|]. apply hk_kv; [left; split; [reflexivity|now apply path1]|apply blockw, ws_sp|now left|apply gapw, ws_sp|]. constructor.
  - apply ln_more; [apply gapw, ws_lf|exists 10%N; split; [now left|now left]| |constructor].
    apply hk_kv; [left; split; [reflexivity|now apply path1]|apply blockw, ws_sp|now left|apply gapw, ws_sp|]. constructor.
  - repeat constructor; cbn; intuition discriminate.
  - constructor; [now apply comp1|]. constructor; [now apply comp1|]. constructor; [now apply comp1|constructor].
  - repeat constructor.
  - exists c, n. split; [exact H|]. split; [exact G|]. split; [apply I; cbn; tauto|]. apply J; [now apply comp1|]. cbn. intuition discriminate.
Qed.
Print Assumptions C70_own_key_partial.
Print Assumptions C70_swallowed.

(** ** C51: lookup along any path *)
(** Whenever the lookup returns, it returns the value reached by descending, whatever the components are (texts without ".", possibly empty). *)
Theorem C51_right_if_returns : forall D (v : cv D) ks o, ks <> [] -> Forall no_dot ks -> get_value v (dotted ks) = ROk o ->
  forall x, o = Some x <-> reaches ks v x.
Proof.
  assert (G : forall D ks (v : cv D) n o, ks <> [] -> Forall no_dot ks -> get_value_fuel n v (dotted ks) = ROk o -> forall x, o = Some x <-> reaches ks v x).
  { intros D. induction ks as [|k ks IH]; intros v n o Hne Hc E x; [congruence|]. inv Hc. destruct n as [|n]; [discriminate|]. cbn [get_value_fuel] in E.
    destruct ks as [|k2 ks].
    - cbn [dotted] in *. destruct (check_path k); cbn [rbind] in E; try discriminate. rewrite split_dot_all in E by assumption.
      destruct v as [|b|s|d|d u|l|m|o0 l|o0 path ms|me f|p v]; try (inv E; split; [discriminate|intros K; now inv K]).
      destruct (hm_get m k) as [c|] eqn:Eg; inv E; split.
      + intros K. inv K. eapply reach_last; [exact Eg|now apply newest_iff].
      + intros K. inversion K as [? ? c' ? Eg' En|]; subst; [|congruence]. rewrite Eg in Eg'. injection Eg' as <-. apply newest_iff in En. now rewrite En.
      + discriminate.
      + intros K. inv K; congruence.
    - change (dotted (k :: k2 :: ks)) with (k ++ 46%N :: dotted (k2 :: ks)) in *. destruct (check_path (k ++ 46%N :: dotted (k2 :: ks))); cbn [rbind] in E; try discriminate.
      rewrite split_dot_app in E by assumption.
      destruct v as [|b|s|d|d u|l|m|o0 l|o0 path ms|me f|p v]; try (inv E; split; [discriminate|intros K; now inv K]).
      destruct (hm_get m k) as [c|] eqn:Eg.
      + specialize (IH (latest c) n o ltac:(discriminate) H2 E x). rewrite IH. split.
        * intros K. eapply reach_more; [discriminate|exact Eg|now apply newest_iff|exact K].
        * intros K. inversion K as [|? ? ? c' ? ? ? Eg' En Er]; subst. rewrite Eg in Eg'. injection Eg' as <-. apply newest_iff in En. now rewrite En.
      + inv E. split; [discriminate|]. intros K. inv K. congruence. }
  intros D v ks o Hne Hc E. eapply G; eassumption.
Qed.
(** Every text is such a path, in one way. *)
Theorem C51_every_path : forall path, exists ks, ks <> [] /\ Forall no_dot ks /\ path = dotted ks /\ forall ks', ks' <> [] -> Forall no_dot ks' -> path = dotted ks' -> ks' = ks.
Proof.
  assert (G : forall n path, length path < n -> exists ks, ks <> [] /\ Forall no_dot ks /\ path = dotted ks).
  { induction n as [|n IH]; intros path Hn; [lia|]. destruct (split_dot path) as [k [t|]] eqn:E.
    - pose proof (split_dot_len _ E) as ->. rewrite app_length in Hn. cbn [List.length] in Hn. destruct (IH t ltac:(lia)) as (ks & H1 & H2 & ->).
      exists (k :: ks). split; [discriminate|]. split; [|destruct ks; [congruence|reflexivity]]. constructor; [|exact H2].
      intros K. apply in_split in K. destruct K as (a & b & ->). clear - E. revert E. generalize (dotted ks) as l. intros l. revert l b.
      induction a as [|x a IHa]; intros l b E; cbn in E; [destruct b; discriminate E|]. destruct (x =? 46)%N; [discriminate|].
      destruct (split_dot ((a ++ 46%N :: b) ++ 46%N :: l)) as [y r] eqn:E2. injection E as E3 ->. subst y. now apply IHa in E2.
    - pose proof (split_dot_none _ E) as ->. exists [k]. split; [discriminate|]. split; [|reflexivity]. constructor; [|constructor].
      intros K. apply in_split in K. destruct K as (a & b & ->). clear - E. revert b E.
      induction a as [|x a IHa]; intros b E; cbn in E; [discriminate|]. destruct (x =? 46)%N; [discriminate|].
      destruct (split_dot (a ++ 46%N :: b)) as [y r] eqn:E2. injection E as E3 ->. subst y. now apply IHa in E2. }
  assert (U : forall ks ks', ks <> [] -> Forall no_dot ks -> ks' <> [] -> Forall no_dot ks' -> dotted ks = dotted ks' -> ks' = ks).
  { induction ks as [|k ks IH]; intros ks' H1 H2 H3 H4 E; [congruence|]. destruct ks' as [|k' ks']; [congruence|]. inv H2. inv H4.
    assert (S1 : forall j js, no_dot j -> split_dot (dotted (j :: js)) = (j, match js with [] => None | _ => Some (dotted js) end)).
    { intros j js Hj. destruct js; [now apply split_dot_all|]. cbn [dotted]. now apply split_dot_app. }
    pose proof (S1 k ks ltac:(assumption)) as Q. rewrite E, (S1 k' ks') in Q by assumption. injection Q as -> Q.
    destruct ks as [|j ks], ks' as [|j' ks']; try discriminate; [reflexivity|]. injection Q as Q. f_equal. apply IH; try assumption; try discriminate. now symmetry. }
  intros path. destruct (G _ path (Nat.lt_succ_diag_r _)) as (ks & H1 & H2 & ->). exists ks. repeat split; try assumption. intros ks' H3 H4 E. now apply U.
Qed.
(** It returns for all components that are not empty, are valid UTF-8, contain no bracket, quote, backslash or end of line, and do not begin with layout or a comment;
    so digits, blanks inside and other letters are fine. *)
Definition text_component (k : list N) : Prop :=
  k <> [] /\ no_dot k /\ Forall (fun x => ~ stop_char x) k /\ utf8_valid k = true /\ solid k.
Lemma check_text : forall r, Forall (fun x => ~ stop_char x) r -> r <> [] -> utf8_valid r = true -> solid r -> check_path r = ROk tt.
Proof.
  intros r Hr Hne Hv Hs. destruct r as [|x r]; [congruence|]. destruct (in_dec N.eq_dec x (bs "-_")) as [Hx|Hx].
  { apply check_path_ok. now right. }
  destruct (is_ascii_alpha x) eqn:Ex; [apply check_path_ok; now left|].
  assert (A : acc key_p ([] ++ (x :: r) ++ []) [] (x :: r)).
  { unfold key_p. apply a_spaced; [apply skips_nil; rewrite app_nil_r; exact Hs| |now apply skips_nil]. apply a_or2.
    - eapply r_attempt, r_path_text. cbn. intros [H|H]; [apply letter_alpha in H; congruence|contradiction].
    - apply a_bare_run; try assumption; [exact I|]. rewrite app_nil_r. exact Hs. }
  specialize (A []). unfold check_path. cbn [app List.length] in A. rewrite !app_nil_r in A. now rewrite A.
Qed.
Lemma dotted_text : forall ks, ks <> [] -> Forall text_component ks ->
  Forall (fun x => ~ stop_char x) (dotted ks) /\ dotted ks <> [] /\ utf8_valid (dotted ks) = true /\ solid (dotted ks).
Proof.
  induction ks as [|k ks IH]; intros Hne Hc; [congruence|]. inv Hc. destruct H1 as (K1 & K2 & K3 & K4 & K5). destruct ks as [|k2 ks]; [now repeat split|].
  destruct (IH ltac:(discriminate) H2) as (I1 & I2 & I3 & I4). change (dotted (k :: k2 :: ks)) with (k ++ [46%N] ++ dotted (k2 :: ks)).
  split; [|split; [|split]].
  - apply Forall_app. split; [exact K3|]. constructor; [|exact I1]. unfold stop_char. cbn. intuition discriminate.
  - destruct k; discriminate.
  - rewrite utf8_valid_app by exact K4. rewrite utf8_valid_app by reflexivity. exact I3.
  - destruct k as [|x k]; [congruence|]. cbn [app solid] in *. destruct K5 as (S1 & S2 & S3). repeat split; try assumption. intros E. specialize (S3 E).
    destruct k; [discriminate|exact S3].
Qed.
Theorem C51_returns_partial : forall D (v : cv D) ks, ks <> [] -> Forall text_component ks ->
  exists o, get_value v (dotted ks) = ROk o /\ forall x, o = Some x <-> reaches ks v x.
Proof.
  intros D v ks Hne Hc.
  assert (G : forall n ks (v : cv D), ks <> [] -> Forall text_component ks -> length (dotted ks) < n -> exists o, get_value_fuel n v (dotted ks) = ROk o).
  { clear. induction n as [|n IH]; intros ks v Hne Hc Hn; [lia|]. cbn [get_value_fuel]. destruct (dotted_text Hne Hc) as (I1 & I2 & I3 & I4).
    rewrite check_text by assumption. cbn [rbind]. destruct ks as [|k [|k2 ks]]; [congruence| |].
    - inv Hc. destruct H1 as (_ & K2 & _). cbn [dotted]. rewrite split_dot_all by exact K2. destruct v; try (eexists; reflexivity). destruct (hm_get m k); eexists; reflexivity.
    - inv Hc. destruct H1 as (K1 & K2 & _). change (dotted (k :: k2 :: ks)) with (k ++ 46%N :: dotted (k2 :: ks)) in *. rewrite split_dot_app by exact K2.
      destruct v; try (eexists; reflexivity). destruct (hm_get m k); [|eexists; reflexivity]. apply IH; [discriminate|assumption|]. rewrite app_length in Hn. cbn [List.length] in Hn. lia. }
  destruct (G _ ks v Hne Hc (Nat.lt_succ_diag_r _)) as [o Eo]. exists o. split; [exact Eo|]. eapply C51_right_if_returns; [exact Hne| |exact Eo].
  eapply Forall_impl; [|exact Hc]. intros k H. apply H.
Qed.
(** The empty path, and paths that begin with a bracket, panic on every configuration. *)
Theorem C51_panics : forall D (v : cv D), get_value v [] = RPanic /\ forall x t, In x (bs "[]") -> get_value v (x :: t) = RPanic.
Proof.
  intros D v. split; [reflexivity|]. intros x t Hx. unfold get_value. cbn [get_value_fuel List.length].
  assert (R : rejx key_p (x :: t)).
  { apply (@rej_rejx _ _ _ false). unfold key_p. assert (Sx : solid (x :: t)) by (cbn in Hx; destruct Hx as [<-|[<-|[]]]; shd). apply r_spaced0; [exact Sx|]. apply r_or.
    - eapply r_attempt, r_path_text. cbn. unfold path_letter, letter. cbn in *. destruct Hx as [<-|[<-|[]]]; lia.
    - apply r_hstring_end; [exact Sx|split; [unfold stop_char; apply in_or_app; now left|]|]; cbn in Hx; destruct Hx as [<-|[<-|[]]]; try split; discriminate. }
  destruct (R []) as (e & c & E). cbn [app List.length] in E. unfold check_path. rewrite E. reflexivity.
Qed.
Example C51_wide_case : exists c, load (bs "a { ""k 1"" = true }") = ROk (Some c) /\ get_value c (bs "a.k 1") = ROk (Some (CBool true)) /\
  Forall text_component [bs "a"; bs "k 1"] /\ reaches [bs "a"; bs "k 1"] c (CBool true).
Proof.
  eexists. split; [vm_compute; reflexivity|]. split; [vm_compute; reflexivity|]. split.
  - assert (T : forall k, k <> [] -> forallb (fun x => negb (existsb (N.eqb x) (46%N :: bs "[]" ++ [13; 10; 92; 34; 39]%N))) k = true -> utf8_valid k = true -> solid k -> text_component k).
    { intros k H1 H2 H3 H4. rewrite forallb_forall in H2. assert (H : forall x, In x k -> ~ In x (46%N :: bs "[]" ++ [13; 10; 92; 34; 39]%N)).
      { intros x Hx C. specialize (H2 x Hx). apply negb_true_iff in H2. enough (existsb (N.eqb x) (46%N :: bs "[]" ++ [13; 10; 92; 34; 39]%N) = true) by congruence.
        apply existsb_exists. exists x. split; [exact C|apply N.eqb_refl]. }
      split; [exact H1|]. split; [intros C; apply (H _ C); now left|]. split; [|now split]. apply Forall_forall. intros x Hx C. apply (H x Hx). now right. }
    constructor; [apply T; try discriminate; try reflexivity; cbn; intuition discriminate|]. constructor; [apply T; try discriminate; try reflexivity; cbn; intuition discriminate|constructor].
  - eapply reach_more; [discriminate|reflexivity|right; split; [reflexivity|discriminate]|].
    eapply reach_last; [reflexivity|right; split; [reflexivity|discriminate]].
Qed.
Print Assumptions C51_right_if_returns.
Print Assumptions C51_every_path.
Print Assumptions C51_returns_partial.
Print Assumptions C51_panics.

(** ** C69: several dotted keys *)
(** If the path of no dotted key is a prefix of another's, then exactly the paths that are written are found, with their values, in whatever order the keys are
    visited: a path that goes on below a written path is looked up in the value there, and nothing else is found. *)
Theorem C69_dotted_keys_partial : forall D (dec : list N -> option D) env files fuel (m : list (list N * cv D)) es es', es <> [] ->
  filter (fun kv => existsb (N.eqb 46) (fst kv)) m = map (fun e => (dotted (fst e), snd e)) es ->
  Forall (fun e => fst e <> [] /\ Forall no_dot (fst e)) es -> apart es ->
  Forall2 (fun e e' => fst e = fst e' /\ resolve dec env files fuel (snd e) None = ROk (snd e')) es es' ->
  exists c, resolve dec env files (S fuel) (CObj m) None = ROk c /\
    (forall p v r x, In (p, v) es' -> (reaches (p ++ r) c x <-> exists y, newest v y /\ match r with [] => x = y | _ => reaches r y x end)) /\
    (forall q x, reaches q c x -> exists p v, In (p, v) es' /\ (above q p \/ above p q)).
Proof.
  intros D dec env files fuel m es es' Hn Em Hes Ha Hr. cbn [Hocon.resolve resolve_step].
  assert (F : filter (fun kv : list N * cv D => set_contains (fst kv) 46%N) m = map (fun e => (dotted (fst e), snd e)) es).
  { exact Em. }
  rewrite F. clear F Em.
  assert (R : rmap (fun kv => rbind (resolve dec env files fuel (snd kv) None) (fun c => ROk (split_all (fst kv), c))) (map (fun e => (dotted (fst e), snd e)) es) = ROk es').
  { clear Ha Hn. induction Hr as [|[p v] [p' v'] es es' [E1 E2] Hr IH]; [reflexivity|]. inv Hes. cbn [map rmap fst snd] in *. subst p'. rewrite E2. cbn [rbind].
    rewrite split_dotted by (destruct H1; assumption). rewrite IH by assumption. reflexivity. }
  rewrite R. cbn [rbind].
  assert (K : map fst es' = map fst es) by (clear - Hr; induction Hr as [|e e' es es' [E _] _ IH]; cbn; congruence).
  assert (A' : apart es').
  { clear - Ha K. revert es' K. induction Ha as [|e es He Ha IH]; intros [|e' es'] K; try discriminate; constructor; cbn in K; injection K as K1 K2; [|now apply IH].
    rewrite Forall_forall in *. intros e2 H2. assert (I2 : In (fst e2) (map fst es)) by (rewrite <- K2; apply in_map_iff; now exists e2).
    apply in_map_iff in I2. destruct I2 as (e3 & E3 & H3). rewrite K1, <- E3. now apply He. }
  assert (N' : Forall (fun e => fst e <> []) es').
  { apply Forall_forall. intros e He. assert (I2 : In (fst e) (map fst es)) by (rewrite <- K; apply in_map_iff; now exists e).
    apply in_map_iff in I2. destruct I2 as (e3 & E3 & H3). rewrite <- E3. rewrite Forall_forall in Hes. now apply Hes. }
  pose proof (@undot_tree D es' [] [] (tree_nil D) A' N') as T. cbn [app] in T. destruct (tree_reaches T N') as [T1 T2].
  assert (Hne : fold_left (@undot_entry D) es' [] <> []).
  { destruct es' as [|[p v] es']; [destruct es; [congruence|discriminate K]|]. intros E. rewrite E in T. inv N'. cbn [fst] in *. destruct p as [|k p]; [congruence|].
    pose proof (tr_leaf T (k :: p) v (or_introl eq_refl) []) as L. cbn in L. discriminate. }
  destruct (fold_left (@undot_entry D) es' []) as [|e0 m'] eqn:Ef; [congruence|]. exists (CObj (e0 :: m')). split; [reflexivity|]. now split.
Qed.
(** In a text of the grammar of HoconSpec.v whose lines have such dotted keys and values that are neither objects nor references, every key finds its value. *)
Theorem C69_document_partial : forall D (dec : list N -> option D) env files a t es, gap a -> hroot dec t (map (fun e => (dotted (fst e), snd e)) es) ->
  Forall (fun e => 2 <= length (fst e) /\ Forall component (fst e) /\ noref (snd e) /\ forall m, snd e <> CObj m) es -> apart es ->
  exists c n, (forall fuel, n <= fuel -> parse_from_string dec env files fuel (a ++ t) = ROk (Some c)) /\
    (forall p v, In (p, v) es -> get_value c (dotted p) = ROk (Some v)) /\
    forall q x, Forall component q -> q <> [] -> get_value c (dotted q) = ROk (Some x) -> exists p v, In (p, v) es /\ above q p.
Proof.
  intros D dec env files a t es Ha Ht Hes Hap. set (ps := map (fun e : list (list N) * cv D => (dotted (fst e), snd e)) es) in *.
  assert (ND : forall e, In e es -> Forall no_dot (fst e)).
  { intros e He. rewrite Forall_forall in Hes. destruct (Hes _ He) as (_ & Hc & _). eapply Forall_impl; [|exact Hc]. exact component_no_dot. }
  assert (NE : forall e, In e es -> fst e <> []).
  { intros e He. rewrite Forall_forall in Hes. destruct (Hes _ He) as (Hl & _). destruct (fst e); [cbn in Hl; lia|discriminate]. }
  assert (Nd : NoDup (map fst ps)).
  { unfold ps. rewrite map_map. cbn [fst]. clear - Hap ND NE. induction Hap as [|e es He Hap IH]; [constructor|]. cbn [map]. constructor.
    - intros Hin. apply in_map_iff in Hin. destruct Hin as (e' & E & Hin). rewrite Forall_forall in He. destruct (He _ Hin) as [H _]. apply H. exists [].
      rewrite app_nil_r. rewrite <- (split_dotted (NE e (or_introl eq_refl)) (ND e (or_introl eq_refl))), <- (split_dotted (NE e' (or_intror Hin)) (ND e' (or_intror Hin))).
      now rewrite E.
    - apply IH; intros e' He'; [apply ND|apply NE]; now right. }
  pose proof (C99_documents_read_partial (hd_root Ha Ht Nd)) as E.
  assert (Nr : Forall (fun kv : list N * cv D => noref (snd kv)) ps).
  { unfold ps. apply Forall_forall. intros kv Hk. apply in_map_iff in Hk. destruct Hk as (e & <- & He). cbn. rewrite Forall_forall in Hes. now destruct (Hes _ He) as (_ & _ & H & _). }
  destruct es as [|e0 es].
  { exfalso. unfold ps in Ht. cbn in Ht. inv Ht. }
  assert (Hd : forall e, In e (e0 :: es) -> In 46%N (dotted (fst e))).
  { intros e He. rewrite Forall_forall in Hes. destruct (Hes _ He) as (Hl & _). destruct (fst e) as [|k [|k2 ks]]; [cbn in Hl; lia|cbn in Hl; lia|].
    change (dotted (k :: k2 :: ks)) with (k ++ 46%N :: dotted (k2 :: ks)). apply in_or_app. right. now left. }
  destruct (@C69_dotted_keys_partial D dec env files 1 ps (e0 :: es) (e0 :: es)) as (c & Ec & C1 & C2).
  - discriminate.
  - unfold ps. clear - Hd. induction (e0 :: es) as [|e l IH]; [reflexivity|]. cbn [map filter fst].
    replace (existsb (N.eqb 46) (dotted (fst e))) with true; [f_equal; apply IH; intros; apply Hd; now right|]. symmetry. apply existsb_exists. exists 46%N. split; [apply Hd; now left|reflexivity].
  - apply Forall_forall. intros e He. split; [now apply NE|now apply ND].
  - exact Hap.
  - assert (G : forall l : list (list (list N) * cv D), Forall (fun e => noref (snd e) /\ forall m, snd e <> CObj m) l ->
      Forall2 (fun e e' => fst e = fst e' /\ resolve dec env files 1 (snd e) None = ROk (snd e')) l l).
    { intros l Hl. induction Hl as [|[p v] l [H1 H2] Hl IH]; constructor; [|exact IH]. split; [reflexivity|]. cbn [snd] in *. inv H1; try reflexivity. now elim (H2 m). }
    apply G. eapply Forall_impl; [|exact Hes]. intros e (_ & _ & H1 & H2). now split.
  - assert (Nc : noref c).
    { destruct (noref_expands dec env files (nr_obj Nr)) as (n & x & Nx & Ex). pose proof (Ex (n + 2) ltac:(lia)) as E1.
      assert (M : resolve dec env files (n + 2) (CObj ps) None = ROk c) by (eapply resolve_mono; [|exact Ec]; lia). congruence. }
    destruct (noref_settles dec env files Nc) as [St _]. destruct (St c) as [n En]. exists c, (n + 2). split; [|split].
    + intros fuel Hf. unfold parse_from_string, parse_from_string_with. rewrite E. unfold resolve_stage0, resolve_stage1.
      assert (M : resolve dec env files fuel (CObj ps) None = ROk c) by (eapply resolve_mono; [|exact Ec]; lia). rewrite M. cbn [rbind rmap fold_left]. rewrite En by lia. reflexivity.
    + intros p v Hin. pose proof Hes as Hes'. rewrite Forall_forall in Hes'. destruct (Hes' _ Hin) as (_ & Hc & _ & _). cbn [fst] in Hc.
      destruct (C51_lookup_partial c (NE _ Hin) Hc) as (o & Eo & Ho). cbn [fst] in Eo. rewrite Eo. f_equal. apply Ho.
      pose proof (C1 p v [] v Hin) as L. rewrite app_nil_r in L. apply L. exists v. split; [|reflexivity]. right. split; [reflexivity|].
      apply (hroot_no_link Ht (dotted p)). unfold ps. apply in_map_iff. now exists (p, v).
    + intros q x Hq Hne Hx. destruct (C51_lookup_partial c Hne Hq) as (o & Eo & Ho). rewrite Eo in Hx. injection Hx as ->. pose proof (proj1 (Ho x) eq_refl) as Rx.
      destruct (C2 q x Rx) as (p & v & Hin & [H|(r & H)]); [now exists p, v|]. destruct r as [|j r]; [exists p, v; split; [exact Hin|exists []; rewrite !app_nil_r in *; congruence]|].
      exfalso. subst q. apply (C1 p v (j :: r) x Hin) in Rx. destruct Rx as (y & Ny & Ry). rewrite Forall_forall in Hes. destruct (Hes _ Hin) as (_ & _ & _ & Hm). cbn [snd] in Hm.
      assert (y = v).
      { destruct Ny as [(pp & Ey)|(Ey & _)]; [|congruence]. exfalso. eapply (hroot_no_link Ht (dotted p)); [|exact Ey]. unfold ps. apply in_map_iff. now exists (p, v). }
      subst y. inv Ry; now elim (Hm m).
Qed.
Example C69_several_case : exists c n, (forall fuel, n <= fuel -> parse_from_string Some xenv xenv fuel (bs "a.b.c = true" ++ lf ++ bs "a.d = false" ++ lf ++ bs "x.y = null") = ROk (Some c)) /\
  get_value c (bs "a.b.c") = ROk (Some (CBool true)) /\ get_value c (bs "a.d") = ROk (Some (CBool false)) /\ get_value c (bs "x.y") = ROk (Some CNull).
Proof.
  destruct (@C69_document_partial (list N) Some xenv xenv [] (bs "a.b.c = true" ++ lf ++ bs "a.d = false" ++ lf ++ bs "x.y = null")
    [([bs "a"; bs "b"; bs "c"], CBool true); ([bs "a"; bs "d"], CBool false); ([bs "x"; bs "y"], CNull)]) as (c & n & H & G & _).
  - exact gap0.
  - cbn [map fst snd].
    assert (P : forall a b, a <> [] -> b <> [] -> forallb is_ascii_alpha a = true -> forallb is_ascii_alpha b = true -> g_path (dotted [a; b])).
    { intros a b H1 H2 H3 H4. apply gp_more; [exact H1|now apply plett|]. now apply path1. }
    apply hr_more; [apply gapw, ws_lf|exists 10%N; split; [now left|now left]| |].
    + change (bs "a.b.c = true") with (dotted [bs "a"; bs "b"; bs "c"] ++ bs " " ++ bs "=" ++ bs " " ++ bs "true").
      apply hk_kv; [left; split; [reflexivity|]|apply blockw, ws_sp|now left|apply gapw, ws_sp|constructor].
      change (dotted [bs "a"; bs "b"; bs "c"]) with (bs "a" ++ bs "." ++ dotted [bs "b"; bs "c"]). apply gp_more; [discriminate|now apply plett|now apply P].
    + apply hr_more; [apply gapw, ws_lf|exists 10%N; split; [now left|now left]| |].
      * change (bs "a.d = false") with (dotted [bs "a"; bs "d"] ++ bs " " ++ bs "=" ++ bs " " ++ bs "false").
        apply hk_kv; [left; split; [reflexivity|now apply P]|apply blockw, ws_sp|now left|apply gapw, ws_sp|constructor].
      * change (bs "x.y = null") with ((dotted [bs "x"; bs "y"] ++ bs " " ++ bs "=" ++ bs " " ++ bs "null") ++ []). apply hr_one; [exact block0|].
        apply hk_kv; [left; split; [reflexivity|now apply P]|apply blockw, ws_sp|now left|apply gapw, ws_sp|constructor].
  - repeat apply Forall_cons; try apply Forall_nil; (split; [cbn; lia|]; split; [|split; [constructor|intros m; discriminate]]); cbn [fst]; repeat apply Forall_cons; try apply Forall_nil; now apply comp1.
  - repeat constructor; cbn [fst]; intros (r & E); cbn in E; discriminate E.
  - exists c, n. split; [exact H|]. repeat split; [apply (G [bs "a"; bs "b"; bs "c"])|apply (G [bs "a"; bs "d"])|apply (G [bs "x"; bs "y"])]; cbn; tauto.
Qed.
Print Assumptions C69_dotted_keys_partial.
Print Assumptions C69_document_partial.
