(** Repetition (repeat_sep): relational specification, soundness, completeness, fuel adequacy. *)
From Verif Require Import Base Core Comb Closure.
Set Implicit Arguments.

(** ** Specification vocabulary (independent of the loop) *)
Definition Fails {I A} (p : parser I A) inp off := exists e c, p inp off = Failure e c.

(** [steps p inp pos vs l]: p matched successively from [pos] gives the values [vs], in total [l] elements. *)
Inductive steps {I A} (p : parser I A) (inp : list I) : nat -> list A -> nat -> Prop :=
| steps_nil : forall pos, steps p inp pos [] 0
| steps_cons : forall pos v n vs m,
    p inp pos = Success v n -> steps p inp (pos + n) vs m -> steps p inp pos (v :: vs) (n + m).

(** [alternates p sep inp pos vs l]: e1 s1 e2 s2 ... en matched successively from [pos], separators only between. *)
Inductive alternates {I A B} (p : parser I A) (sep : parser I B) (inp : list I) : nat -> list A -> nat -> Prop :=
| alt_one : forall pos v n, p inp pos = Success v n -> alternates p sep inp pos [v] n
| alt_more : forall pos v n w m vs k,
    p inp pos = Success v n -> sep inp (pos + n) = Success w m ->
    alternates p sep inp (pos + n + m) vs k -> alternates p sep inp pos (v :: vs) (n + m + k).

(** May [count] items be the end of the repetition because the upper bound is reached? *)
Definition at_max (rend : bound) (count : nat) : Prop :=
  match rend with
  | BIncluded max => max <= count
  | BExcluded max => max <= S count
  | BUnbounded => False
  end.

(** The rest of a repetition after an element has been matched ([count] elements so far). *)
Inductive tail {I A B} (p : parser I A) (sep : parser I B) (rend : bound) (inp : list I)
  : nat -> nat -> list A -> nat -> Prop :=
| tail_max : forall cur count, at_max rend count -> tail p sep rend inp cur count [] 0
| tail_nosep : forall cur count, ~ at_max rend count -> Fails sep inp cur -> tail p sep rend inp cur count [] 0
| tail_dangling : forall cur count w m, ~ at_max rend count -> sep inp cur = Success w m ->
    Fails p inp (cur + m) -> tail p sep rend inp cur count [] m
| tail_more : forall cur count w m v n vs k, ~ at_max rend count -> sep inp cur = Success w m ->
    p inp (cur + m) = Success v n -> tail p sep rend inp (cur + m + n) (S count) vs k ->
    tail p sep rend inp cur count (v :: vs) (m + n + k).

(** ** The loop *)
Lemma rep_stop_iff : forall rend count, rep_stop rend count = true <-> at_max rend count.
Proof.
  intros [max|max|] count; cbn; rewrite ?Nat.leb_le; try tauto.
  - lia.
  - split; [discriminate|tauto].
Qed.
Lemma rep_stop_false_iff : forall rend count, rep_stop rend count = false <-> ~ at_max rend count.
Proof.
  intros rend count. rewrite <- rep_stop_iff. destruct (rep_stop rend count); split; congruence.
Qed.

(** A missing separator behaves as one that always matches the empty text. *)
Lemma rep_loop_none : forall I A B (p : parser I A) rend inp fuel cur items al,
  rep_loop fuel p (None : option (parser I B)) rend inp cur items al =
  rep_loop fuel p (Some (p_successful tt)) rend inp cur items al.
Proof.
  intros I A B p rend inp fuel. induction fuel as [|fuel IH]; intros cur items al; cbn; [reflexivity|].
  destruct (rep_stop rend (length items)); [reflexivity|]. rewrite !Nat.add_0_r.
  destruct (p inp cur); try reflexivity. apply IH.
Qed.

Lemma repeat_none : forall I A B (p : parser I A) r fuel inp off,
  repeat_sep_fuel fuel p r (None : option (parser I B)) inp off =
  repeat_sep_fuel fuel p r (Some (p_successful tt)) inp off.
Proof.
  intros. unfold repeat_sep_fuel. f_equal. destruct (p inp off); try reflexivity. apply rep_loop_none.
Qed.

Lemma rep_loop_step : forall I A B (p : parser I A) (sep : parser I B) rend inp fuel cur items al,
  rep_loop (S fuel) p (Some sep) rend inp cur items al =
  if rep_stop rend (length items) then RDone (rev items) al
  else match sep inp cur with
       | Success _ m =>
           match p inp (cur + m) with
           | Success v n => rep_loop fuel p (Some sep) rend inp (cur + m + n) (v :: items) (al + m + n)
           | Failure _ _ => RDone (rev items) (al + m)
           | Panic => RPanic
           | Diverge => RDiverge
           end
       | Failure _ _ => RDone (rev items) al
       | Panic => RPanic
       | Diverge => RDiverge
       end.
Proof. reflexivity. Qed.

Lemma rep_loop_sound : forall I A B (p : parser I A) (sep : parser I B) rend inp fuel cur items al its al',
  rep_loop fuel p (Some sep) rend inp cur items al = RDone its al' ->
  exists vs k, its = rev items ++ vs /\ al' = al + k /\ tail p sep rend inp cur (length items) vs k.
Proof.
  intros I A B p sep rend inp fuel. induction fuel as [|fuel IH]; intros cur items al its al' H; [discriminate|].
  rewrite rep_loop_step in H. destruct (rep_stop rend (length items)) eqn:Es.
  - inv H. exists [], 0. rewrite app_nil_r. repeat split; [lia|]. apply tail_max. now apply rep_stop_iff.
  - apply rep_stop_false_iff in Es. destruct (sep inp cur) as [w m|e c| |] eqn:E1; try discriminate.
    + destruct (p inp (cur + m)) as [v n|e c| |] eqn:E2; try discriminate.
      * apply IH in H. destruct H as (vs & k & -> & -> & H). exists (v :: vs), (m + n + k).
        repeat split.
        -- cbn. now rewrite <- app_assoc.
        -- lia.
        -- eapply tail_more; eauto.
      * inv H. exists [], m. rewrite app_nil_r. repeat split. eapply tail_dangling; eauto. eexists; eauto.
    + inv H. exists [], 0. rewrite app_nil_r. repeat split; [lia|]. apply tail_nosep; auto. eexists; eauto.
Qed.

Lemma rep_loop_complete : forall I A B (p : parser I A) (sep : parser I B) rend inp cur count vs k,
  tail p sep rend inp cur count vs k ->
  forall fuel items al, count = length items -> length vs < fuel ->
  rep_loop fuel p (Some sep) rend inp cur items al = RDone (rev items ++ vs) (al + k).
Proof.
  intros I A B p sep rend inp cur count vs k H.
  induction H; intros fuel items al Hc Hf; (destruct fuel as [|fuel]; [cbn in Hf; lia|]);
    rewrite rep_loop_step; subst count.
  - rewrite (proj2 (rep_stop_iff _ _) H). now rewrite app_nil_r, Nat.add_0_r.
  - rewrite (proj2 (rep_stop_false_iff _ _) H). destruct H0 as (e & c & ->). now rewrite app_nil_r, Nat.add_0_r.
  - rewrite (proj2 (rep_stop_false_iff _ _) H), H0. destruct H1 as (e & c & ->). now rewrite app_nil_r.
  - rewrite (proj2 (rep_stop_false_iff _ _) H), H0, H1. rewrite IHtail; [|reflexivity|cbn in Hf; lia].
    cbn. rewrite <- app_assoc. f_equal. lia.
Qed.

(** ** Fuel *)
Lemma rep_loop_mono : forall I A B (p : parser I A) (sep : option (parser I B)) rend inp fuel cur items al,
  rep_loop fuel p sep rend inp cur items al <> RDiverge ->
  forall fuel', fuel <= fuel' ->
  rep_loop fuel' p sep rend inp cur items al = rep_loop fuel p sep rend inp cur items al.
Proof.
  intros I A B p sep rend inp fuel. induction fuel as [|fuel IH]; intros cur items al H fuel' Hf;
    [exfalso; apply H; reflexivity|]. destruct fuel' as [|fuel']; [lia|]. cbn in *.
  destruct (rep_stop rend (length items)); [reflexivity|]. destruct sep as [s|].
  - destruct (s inp cur); try reflexivity. destruct (p inp (cur + len)); try reflexivity. apply IH; [exact H|lia].
  - destruct (p inp cur); try reflexivity. apply IH; [exact H|lia].
Qed.

Lemma rep_zero_diverges : forall I A B (p : parser I A) (sep : parser I B) inp cur w v,
  sep inp cur = Success w 0 -> p inp cur = Success v 0 ->
  forall fuel items al, rep_loop fuel p (Some sep) BUnbounded inp cur items al = RDiverge.
Proof.
  intros I A B p sep inp cur w v Hs Hp fuel. induction fuel as [|fuel IH]; intros items al; [reflexivity|].
  rewrite rep_loop_step. cbn [rep_stop]. rewrite Hs, Nat.add_0_r, Hp, Nat.add_0_r. apply IH.
Qed.

Lemma rep_loop_adequate : forall I A B (p : parser I A) (sep : parser I B) rend inp,
  bounded p -> bounded sep ->
  forall K cur items al, cur <= length inp ->
  rep_loop K p (Some sep) rend inp cur items al <> RDiverge ->
  forall F, F >= 1 + (length inp - cur) + (bound_count rend - length items) ->
  rep_loop F p (Some sep) rend inp cur items al = rep_loop K p (Some sep) rend inp cur items al.
Proof.
  intros I A B p sep rend inp Hp Hs K. induction K as [|K IH]; intros cur items al Hc H F HF; [cbn in H; congruence|].
  destruct F as [|F]; [lia|]. rewrite !rep_loop_step in *.
  destruct (rep_stop rend (length items)) eqn:Es; [reflexivity|]. apply rep_stop_false_iff in Es.
  destruct (sep inp cur) as [w m|e c| |] eqn:E1; try reflexivity.
  destruct (p inp (cur + m)) as [v n|e c| |] eqn:E2; try reflexivity.
  pose proof (Hs _ _ _ _ Hc E1) as B1. pose proof (Hp _ _ _ _ B1 E2) as B2.
  apply IH; [exact B2|exact H|]. cbn [List.length].
  destruct (Nat.eq_dec (m + n) 0) as [Z|Z]; [|lia].
  assert (m = 0) by lia. assert (n = 0) by lia. subst m n. rewrite !Nat.add_0_r in *.
  destruct rend as [max|max|]; cbn in *; try lia.
  exfalso. apply H. eapply rep_zero_diverges; eauto.
Qed.

(** More fuel does not change the answer, and a [Diverge] of the model is a divergence at every fuel. *)
Lemma repeat_sep_adequate : forall I A B (p : parser I A) r (sep : parser I B) inp off,
  bounded p -> bounded sep -> off <= length inp ->
  (forall fuel, rep_fuel (rg_end r) inp off <= fuel ->
     repeat_sep_fuel fuel p r (Some sep) inp off = p_repeat_sep p r (Some sep) inp off) /\
  (p_repeat_sep p r (Some sep) inp off = Diverge ->
     forall fuel, repeat_sep_fuel fuel p r (Some sep) inp off = Diverge).
Proof.
  intros I A B p r sep inp off Hp Hs Ho. unfold p_repeat_sep, repeat_sep_fuel.
  destruct (p inp off) as [v n|e c| |] eqn:E.
  3: { split; [reflexivity|discriminate]. }
  3: { split; reflexivity. }
  2: { split; [reflexivity|]. intros H. exfalso. revert H. cbn [rep_finish].
       destruct (rg_start r) as [[|k]|k|]; try discriminate. cbn.
       destruct (ps_input inp (off + 0)); discriminate. }
  pose proof (Hp _ _ _ _ Ho E) as B1.
  set (F0 := rep_fuel (rg_end r) inp off).
  assert (HF0 : F0 >= 1 + (length inp - (off + n)) + (bound_count (rg_end r) - 1)).
  { unfold F0, rep_fuel. lia. }
  assert (Key : rep_loop F0 p (Some sep) (rg_end r) inp (off + n) [v] n = RDiverge ->
                forall fuel, rep_loop fuel p (Some sep) (rg_end r) inp (off + n) [v] n = RDiverge).
  { intros H fuel.
    destruct (rep_loop fuel p (Some sep) (rg_end r) inp (off + n) [v] n) eqn:R; [| |reflexivity].
    - rewrite <- H, <- R. symmetry. apply rep_loop_adequate; auto. congruence.
    - rewrite <- H, <- R. symmetry. apply rep_loop_adequate; auto. congruence. }
  split.
  - intros fuel Hf. f_equal.
    destruct (rep_loop F0 p (Some sep) (rg_end r) inp (off + n) [v] n) eqn:R; rewrite <- R.
    + apply rep_loop_mono; [congruence|exact Hf].
    + apply rep_loop_mono; [congruence|exact Hf].
    + rewrite R. now apply Key.
  - intros H fuel. rewrite Key; [reflexivity|].
    destruct (rep_loop F0 p (Some sep) (rg_end r) inp (off + n) [v] n) eqn:R; try reflexivity; exfalso.
    + revert H. cbn [rep_finish]. destruct (rg_start r) as [k|k|]; try discriminate.
      destruct (length items <? k); [|discriminate]. destruct (ps_input _ _); discriminate.
    + discriminate H.
Qed.

(** ** Termination *)
Lemma rep_loop_terminates : forall I A B (p : parser I A) (sep : parser I B) rend inp,
  bounded p -> bounded sep ->
  (forall pos, pos <= length inp -> p inp pos <> Diverge) ->
  (forall pos, pos <= length inp -> sep inp pos <> Diverge) ->
  (rend = BUnbounded -> forall pos w m v n, pos <= length inp -> sep inp pos = Success w m ->
     p inp (pos + m) = Success v n -> 0 < m + n) ->
  forall F cur items al, cur <= length inp ->
  F >= 1 + (length inp - cur) + (bound_count rend - length items) ->
  rep_loop F p (Some sep) rend inp cur items al <> RDiverge.
Proof.
  intros I A B p sep rend inp Hp Hs Dp Ds Prog F. induction F as [|F IH]; intros cur items al Hc HF; [lia|].
  rewrite rep_loop_step. destruct (rep_stop rend (length items)) eqn:Es; [discriminate|].
  apply rep_stop_false_iff in Es.
  destruct (sep inp cur) as [w m|e c| |] eqn:E1; try discriminate; [|now apply Ds in E1].
  pose proof (Hs _ _ _ _ Hc E1) as B1.
  destruct (p inp (cur + m)) as [v n|e c| |] eqn:E2; try discriminate; [|now apply Dp in E2].
  pose proof (Hp _ _ _ _ B1 E2) as B2.
  apply IH; [exact B2|]. cbn [List.length].
  destruct rend as [max|max|]; cbn in *; try lia.
  pose proof (Prog eq_refl _ _ _ _ _ Hc E1 E2). lia.
Qed.

(** ** Lengths *)
Lemma steps_bounded : forall I A (p : parser I A) inp pos vs l,
  bounded p -> steps p inp pos vs l -> pos <= length inp -> pos + l <= length inp.
Proof.
  intros I A p inp pos vs l Hp H. induction H; intros Ho; [lia|].
  pose proof (Hp _ _ _ _ Ho H). specialize (IHsteps H1). lia.
Qed.

Lemma steps_app : forall I A (p : parser I A) inp pos vs1 l1 vs2 l2,
  steps p inp pos vs1 l1 -> steps p inp (pos + l1) vs2 l2 -> steps p inp pos (vs1 ++ vs2) (l1 + l2).
Proof.
  intros I A p inp pos vs1 l1 vs2 l2 H. induction H; intros H2; cbn.
  - now rewrite Nat.add_0_r in H2.
  - rewrite <- Nat.add_assoc. econstructor; [exact H|]. apply IHsteps.
    now rewrite <- Nat.add_assoc.
Qed.

(** Iterated matching is deterministic: two maximal runs from the same position coincide. *)
Lemma steps_deterministic : forall I A (p : parser I A) inp pos vs l, steps p inp pos vs l -> Fails p inp (pos + l) ->
  forall vs' l', steps p inp pos vs' l' -> Fails p inp (pos + l') -> vs = vs' /\ l = l'.
Proof.
  intros I A p inp pos vs l H. induction H; intros Hf vs' l' H' Hf'.
  - destruct H' as [|pos v n vs m Hp H']; [auto|]. rewrite Nat.add_0_r in Hf. destruct Hf as (e & c & Hf). congruence.
  - destruct H' as [|pos v' n' vs' m' Hp H'].
    + rewrite Nat.add_0_r in Hf'. destruct Hf' as (e & c & Hf'). congruence.
    + rewrite H in Hp. inv Hp. rewrite Nat.add_assoc in Hf, Hf'.
      destruct (IHsteps Hf _ _ H' Hf') as [-> ->]. auto.
Qed.

(** Tails without separator are iterated matches. *)
Lemma tail_unit_steps : forall I A (p : parser I A) rend inp cur count vs k,
  tail p (p_successful tt) rend inp cur count vs k ->
  steps p inp cur vs k /\ (Fails p inp (cur + k) \/ at_max rend (count + length vs)).
Proof.
  intros I A p rend inp cur count vs k H. induction H.
  - split; [constructor|right]. cbn. now rewrite Nat.add_0_r.
  - destruct H0 as (e & c & H0). discriminate.
  - inv H0. rewrite Nat.add_0_r in *. split; [constructor|]. now left.
  - inv H0. rewrite Nat.add_0_r in *. destruct IHtail as [H3 H4]. cbn. split.
    + econstructor; eauto.
    + rewrite Nat.add_assoc. destruct H4 as [H4|H4]; [now left|right].
      replace (count + S (length vs)) with (S count + length vs) by lia. exact H4.
Qed.

Lemma steps_tail_unit : forall I A (p : parser I A) rend inp cur vs k,
  steps p inp cur vs k -> forall count, (forall i, i < length vs -> ~ at_max rend (count + i)) ->
  (at_max rend (count + length vs) \/ (~ at_max rend (count + length vs) /\ Fails p inp (cur + k))) ->
  tail p (p_successful tt) rend inp cur count vs k.
Proof.
  intros I A p rend inp cur vs k H. induction H; intros count Hn He.
  - cbn in He. rewrite !Nat.add_0_r in He. destruct He as [He|[He1 He2]].
    + now apply tail_max.
    + eapply tail_dangling; [exact He1|reflexivity|]. now rewrite Nat.add_0_r.
  - change (n + m) with (0 + n + m). eapply tail_more with (w := tt).
    + specialize (Hn 0). cbn in Hn. rewrite Nat.add_0_r in Hn. apply Hn. lia.
    + reflexivity.
    + now rewrite Nat.add_0_r.
    + rewrite Nat.add_0_r. apply IHsteps.
      * intros i Hi. replace (S count + i) with (count + S i) by lia. apply Hn. cbn. lia.
      * cbn in He. replace (S count + length vs) with (count + S (length vs)) by lia.
        now rewrite <- Nat.add_assoc.
Qed.

(** Number of items and progress. *)
Lemma tail_length : forall I A B (p : parser I A) (sep : parser I B) rend inp cur count vs k,
  bounded p -> bounded sep -> tail p sep rend inp cur count vs k -> cur <= length inp ->
  cur + k <= length inp /\ length vs <= (length inp - cur) + (bound_count rend - count).
Proof.
  intros I A B p sep rend inp cur count vs k Hp Hs H Hc.
  revert Hc. induction H; intros Hc.
  - cbn. lia.
  - cbn. lia.
  - pose proof (Hs _ _ _ _ Hc H0). cbn. lia.
  - pose proof (Hs _ _ _ _ Hc H0) as B1. pose proof (Hp _ _ _ _ B1 H1) as B2.
    specialize (IHtail B2). split; [lia|]. cbn [List.length].
    destruct (Nat.eq_dec (m + n) 0) as [Z|Z]; [|lia].
    assert (m = 0) by lia. assert (n = 0) by lia. subst. rewrite !Nat.add_0_r in *.
    destruct rend as [max|max|]; cbn in *; try lia.
    exfalso.
    (* an unbounded repetition can not get past an empty iteration *)
    pose proof (rep_loop_complete H2 (fuel := S (length vs)) (repeat v (S count)) 0) as X.
    rewrite (@rep_zero_diverges _ _ _ p sep inp cur w v H0 H1) in X. cbn [List.length repeat] in X. rewrite repeat_length in X.
    discriminate X; [reflexivity|lia].
Qed.

(** ** The whole repetition *)
(** Lower bound of a range as [repeat_sep] reads it. *)
Definition min_ok (b : bound) (n : nat) : Prop :=
  match b with BIncluded min => min <= n | BExcluded _ | BUnbounded => True end.

Inductive run {I A B} (p : parser I A) (sep : parser I B) (rend : bound) (inp : list I) (off : nat)
  : list A -> nat -> Prop :=
| run_none : Fails p inp off -> run p sep rend inp off [] 0
| run_some : forall v n vs k, p inp off = Success v n -> tail p sep rend inp (off + n) 1 vs k ->
    run p sep rend inp off (v :: vs) (n + k).

Lemma rep_finish_success : forall I A rs (inp : list I) off (r : rep_result A) vs l,
  rep_finish rs inp off r = Success vs l <-> r = RDone vs l /\ min_ok rs (length vs).
Proof.
  intros I A rs inp off r vs l. destruct r as [its al| |]; cbn [rep_finish].
  - destruct rs as [k|k|]; cbn [min_ok].
    + destruct (Nat.ltb_spec (length its) k).
      * split; [destruct (ps_input _ _); discriminate|]. intros [E Hm]. inv E. lia.
      * split; [intros E; inv E; auto|]. intros [E Hm]. now inv E.
    + split; [intros E; inv E; auto|]. intros [E Hm]. now inv E.
    + split; [intros E; inv E; auto|]. intros [E Hm]. now inv E.
  - split; [discriminate|intros [E _]; discriminate].
  - split; [discriminate|intros [E _]; discriminate].
Qed.

Lemma rep_finish_failure : forall I A rs (inp : list I) off (r : rep_result A) e c,
  rep_finish rs inp off r = Failure e c ->
  c = Uncommitted /\ exists vs l, r = RDone vs l /\ ~ min_ok rs (length vs).
Proof.
  intros I A rs inp off r e c. destruct r as [its al| |]; cbn [rep_finish]; try discriminate.
  destruct rs as [k|k|]; cbn [min_ok]; try discriminate.
  destruct (Nat.ltb_spec (length its) k); [|discriminate].
  destruct (ps_input _ _); [|discriminate]. intros E. inv E. split; [reflexivity|].
  exists its, al. split; [reflexivity|lia].
Qed.

Lemma rep_finish_failure_intro : forall I A rs (inp : list I) off (r : rep_result A) vs l,
  r = RDone vs l -> ~ min_ok rs (length vs) -> off + l <= length inp ->
  exists e, rep_finish rs inp off r = Failure e Uncommitted.
Proof.
  intros I A rs inp off r vs l -> Hm Hl. cbn [rep_finish]. destruct rs as [k|k|]; cbn [min_ok] in Hm; try tauto.
  destruct (Nat.ltb_spec (length vs) k); [|lia]. rewrite ps_input_ok by lia. eexists. reflexivity.
Qed.

Lemma repeat_loop_run : forall I A B (p : parser I A) r (sep : parser I B) inp off vs l,
  bounded p -> bounded sep -> off <= length inp ->
  (match p inp off with
   | Success value n => rep_loop (rep_fuel (rg_end r) inp off) p (Some sep) (rg_end r) inp (off + n) [value] n
   | Failure _ _ => RDone [] 0
   | Panic => RPanic
   | Diverge => RDiverge
   end = RDone vs l) <-> run p sep (rg_end r) inp off vs l.
Proof.
  intros I A B p r sep inp off vs l Hp Hs Ho. split.
  - intros H. destruct (p inp off) as [v n|e c| |] eqn:E; try discriminate.
    + apply rep_loop_sound in H. destruct H as (vs' & k & -> & -> & H). cbn. now constructor.
    + inv H. constructor. eexists; eauto.
  - intros H. destruct H as [(e & c & H)|v n vs k H H1].
    + now rewrite H.
    + rewrite H. pose proof (Hp _ _ _ _ Ho H) as B1.
      destruct (tail_length Hp Hs H1 B1) as [_ L]. rewrite (rep_loop_complete H1); [reflexivity|reflexivity|].
      unfold rep_fuel. lia.
Qed.

Lemma run_bounded : forall I A B (p : parser I A) (sep : parser I B) rend inp off vs l,
  bounded p -> bounded sep -> off <= length inp -> run p sep rend inp off vs l -> off + l <= length inp.
Proof.
  intros I A B p sep rend inp off vs l Hp Hs Ho H. destruct H as [H|v n vs k H H1]; [lia|].
  pose proof (Hp _ _ _ _ Ho H) as B1. destruct (tail_length Hp Hs H1 B1) as [L _]. lia.
Qed.

Lemma repeat_sep_success : forall I A B (p : parser I A) r (sep : parser I B) inp off vs l,
  bounded p -> bounded sep -> off <= length inp ->
  p_repeat_sep p r (Some sep) inp off = Success vs l <->
  run p sep (rg_end r) inp off vs l /\ min_ok (rg_start r) (length vs).
Proof.
  intros I A B p r sep inp off vs l Hp Hs Ho. unfold p_repeat_sep, repeat_sep_fuel.
  rewrite rep_finish_success. rewrite repeat_loop_run by assumption. reflexivity.
Qed.

Lemma repeat_sep_failure : forall I A B (p : parser I A) r (sep : parser I B) inp off,
  bounded p -> bounded sep -> off <= length inp ->
  (exists e, p_repeat_sep p r (Some sep) inp off = Failure e Uncommitted) <->
  (exists vs l, run p sep (rg_end r) inp off vs l /\ ~ min_ok (rg_start r) (length vs)).
Proof.
  intros I A B p r sep inp off Hp Hs Ho. unfold p_repeat_sep, repeat_sep_fuel. split.
  - intros [e H]. apply rep_finish_failure in H. destruct H as (_ & vs & l & H & Hm).
    rewrite repeat_loop_run in H by assumption. eauto.
  - intros (vs & l & H & Hm). eapply rep_finish_failure_intro; [|exact Hm|exact (run_bounded Hp Hs Ho H)].
    apply repeat_loop_run; assumption.
Qed.

Lemma repeat_sep_uncommitted : forall I A B (p : parser I A) r (sep : option (parser I B)) inp off e c,
  p_repeat_sep p r sep inp off = Failure e c -> c = Uncommitted.
Proof. intros I A B p r sep inp off e c H. now apply rep_finish_failure in H. Qed.

(** A maximal run from the same place is unique. *)
Lemma tail_det : forall I A B (p : parser I A) (sep : parser I B) rend inp cur count vs k,
  tail p sep rend inp cur count vs k -> forall vs' k', tail p sep rend inp cur count vs' k' -> vs = vs' /\ k = k'.
Proof.
  intros I A B p sep rend inp cur count vs k H.
  induction H; intros vs' k' H'; inv H'; try tauto; repeat match goal with
    | H : Fails _ _ _ |- _ => destruct H as (? & ? & ?)
    | H1 : ?x = Success _ _, H2 : ?x = Success _ _ |- _ => rewrite H1 in H2; inv H2
    end; try congruence; auto.
  match goal with H : tail _ _ _ _ _ _ vs0 _ |- _ => destruct (IHtail _ _ H) as [-> ->]; auto end.
Qed.

Lemma run_det : forall I A B (p : parser I A) (sep : parser I B) rend inp off vs l vs' l',
  run p sep rend inp off vs l -> run p sep rend inp off vs' l' -> vs = vs' /\ l = l'.
Proof.
  intros I A B p sep rend inp off vs l vs' l' H H'.
  destruct H as [(e & c & H)|v n vs k H H1]; destruct H' as [(e' & c' & H')|v' n' vs' k' H' H1'];
    try congruence; auto.
  rewrite H in H'. inv H'. destruct (tail_det H1 H1') as [-> ->]. auto.
Qed.

(** *** Without separator *)
Lemma bounded_unit : forall I, bounded (p_successful (I := I) tt).
Proof. intros I inp off v n Ho H. inv H. lia. Qed.

(** May the upper bound allow [n] items (the meaning of a Rust range)? *)
Definition upper_ok (b : bound) (n : nat) : Prop :=
  match b with BIncluded max => n <= max | BExcluded max => n < max | BUnbounded => True end.

Lemma at_max_upper : forall b n, at_max b n <-> ~ upper_ok b (S n).
Proof. intros [m|m|] n; cbn; lia || tauto. Qed.

Lemma upper_ok_le : forall b n m, n <= m -> upper_ok b m -> upper_ok b n.
Proof. intros [k|k|] n m; cbn; lia || tauto. Qed.

Lemma run_unit : forall I A (p : parser I A) rend inp off vs l, upper_ok rend 1 ->
  run p (p_successful tt) rend inp off vs l <->
  steps p inp off vs l /\ upper_ok rend (length vs) /\ (Fails p inp (off + l) \/ ~ upper_ok rend (S (length vs))).
Proof.
  intros I A p rend inp off vs l H1. split.
  - intros H. destruct H as [H|v n vs k H Ht].
    + repeat split; [constructor|eapply upper_ok_le; [|exact H1]; cbn; lia|left; now rewrite Nat.add_0_r].
    + assert (Hu : forall cur count vs k, tail p (p_successful tt) rend inp cur count vs k -> upper_ok rend count ->
                   upper_ok rend (count + length vs)).
      { clear. intros cur count vs k H. induction H; intros Hc; cbn; rewrite ?Nat.add_0_r; auto.
        replace (count + S (length vs)) with (S count + length vs) by lia. apply IHtail.
        destruct rend; cbn in *; lia || tauto. }
      pose proof (Hu _ _ _ _ Ht H1) as Hl. apply tail_unit_steps in Ht. destruct Ht as [Hs He]. repeat split.
      * econstructor; eauto.
      * exact Hl.
      * rewrite Nat.add_assoc. destruct He as [He|He]; [now left|right]. now apply at_max_upper in He.
  - intros (Hs & Hu & He). destruct Hs as [pos|pos v n vs m Hp Hs].
    + destruct He as [He|He]; [|cbn in He; tauto]. rewrite Nat.add_0_r in He. now constructor.
    + econstructor; [exact Hp|]. apply steps_tail_unit; [exact Hs| |].
      * intros i Hi. rewrite at_max_upper. intros Hn. apply Hn. eapply upper_ok_le; [|exact Hu]. cbn. lia.
      * rewrite <- Nat.add_assoc. rewrite at_max_upper. cbn [Nat.add]. cbn [List.length] in He.
        destruct rend as [k|k|]; cbn in *; destruct He as [He|He]; try tauto; try (now left).
        -- destruct (le_lt_dec (S (S (length vs))) k); [right|left]; [split; [lia|exact He]|lia].
        -- destruct (le_lt_dec k (S (S (length vs)))); [left|right]; [lia|split; [lia|exact He]].
Qed.

Lemma many_none_success : forall I A (p : parser I A) r inp off vs l,
  bounded p -> off <= length inp -> upper_ok (rg_end r) 1 ->
  p_repeat_sep p r (None : option (parser I unit)) inp off = Success vs l <->
  steps p inp off vs l /\ min_ok (rg_start r) (length vs) /\ upper_ok (rg_end r) (length vs) /\
  (Fails p inp (off + l) \/ ~ upper_ok (rg_end r) (S (length vs))).
Proof.
  intros I A p r inp off vs l Hp Ho H1. unfold p_repeat_sep. rewrite repeat_none. fold (p_repeat_sep p r (Some (p_successful (I := I) tt)) inp off).
  rewrite repeat_sep_success by (auto using bounded_unit). rewrite run_unit by exact H1. tauto.
Qed.

Lemma many_none_failure : forall I A (p : parser I A) r inp off,
  bounded p -> off <= length inp -> upper_ok (rg_end r) 1 ->
  (exists e, p_repeat_sep p r (None : option (parser I unit)) inp off = Failure e Uncommitted) <->
  exists vs l, steps p inp off vs l /\ ~ min_ok (rg_start r) (length vs) /\ upper_ok (rg_end r) (length vs) /\
  (Fails p inp (off + l) \/ ~ upper_ok (rg_end r) (S (length vs))).
Proof.
  intros I A p r inp off Hp Ho H1. unfold p_repeat_sep. rewrite repeat_none. fold (p_repeat_sep p r (Some (p_successful (I := I) tt)) inp off).
  rewrite repeat_sep_failure by (auto using bounded_unit).
  split; intros (vs & l & H); exists vs, l; rewrite run_unit in * by exact H1; tauto.
Qed.

(** *** With separator: tails and alternation *)
Lemma tail_alternates : forall I A B (p : parser I A) (sep : parser I B) inp cur count vs k,
  tail p sep BUnbounded inp cur count vs k ->
  forall pos v n, cur = pos + n -> p inp pos = Success v n ->
  exists l0, alternates p sep inp pos (v :: vs) l0 /\
    ((Fails sep inp (pos + l0) /\ n + k = l0) \/
     (exists w m, sep inp (pos + l0) = Success w m /\ Fails p inp (pos + l0 + m) /\ n + k = l0 + m)).
Proof.
  intros I A B p sep inp cur count vs k H. induction H; intros pos v0 n0 Hc Hp; subst cur.
  - contradiction.
  - exists n0. split; [now constructor|]. left. split; [exact H0|lia].
  - exists n0. split; [now constructor|]. right. eauto 6.
  - destruct (IHtail _ _ _ eq_refl H1) as (l0 & Ha & He). exists (n0 + m + l0). split.
    + eapply alt_more; eauto.
    + replace (pos + (n0 + m + l0)) with (pos + n0 + m + l0) by lia.
      destruct He as [[He1 He2]|(w' & m' & He1 & He2 & He3)]; [left|right].
      * split; [exact He1|lia].
      * exists w', m'. repeat split; auto; lia.
Qed.

Lemma alternates_tail : forall I A B (p : parser I A) (sep : parser I B) inp pos vs l0,
  alternates p sep inp pos vs l0 -> forall count k,
  ((Fails sep inp (pos + l0) /\ k = l0) \/
   (exists w m, sep inp (pos + l0) = Success w m /\ Fails p inp (pos + l0 + m) /\ k = l0 + m)) ->
  exists v n vs' k', vs = v :: vs' /\ p inp pos = Success v n /\ k = n + k' /\
    tail p sep BUnbounded inp (pos + n) count vs' k'.
Proof.
  intros I A B p sep inp pos vs l0 H. induction H; intros count k0 He.
  - exists v, n, []. destruct He as [[He ->]|(w & m & He1 & He2 & ->)].
    + exists 0. repeat split; auto. apply tail_nosep; auto.
    + exists m. repeat split; auto. eapply tail_dangling; eauto.
  - replace (pos + (n + m + k)) with (pos + n + m + k) in He by lia.
    destruct (IHalternates (S count) (k0 - (n + m))) as (v1 & n1 & vs' & k' & -> & Hp1 & Hk & Ht).
    { destruct He as [[He ->]|(w' & m' & He1 & He2 & ->)]; [left|right].
      - split; [exact He|lia].
      - exists w', m'. repeat split; auto; lia. }
    exists v, n, (v1 :: vs'), (m + n1 + k').
    assert (n + m <= k0) by (destruct He as [[He ->]|(w' & m' & He1 & He2 & ->)]; lia).
    repeat split; auto; [lia|]. eapply tail_more; eauto.
Qed.

(** ** Divergence *)
Lemma rep_steps_diverges : forall I A (p : parser I A) inp cur vs l,
  steps p inp cur vs l -> forall v, p inp (cur + l) = Success v 0 ->
  forall fuel items al, rep_loop fuel p (Some (p_successful tt)) BUnbounded inp cur items al = RDiverge.
Proof.
  intros I A p inp cur vs l H. induction H; intros v0 Hv fuel items al.
  - eapply rep_zero_diverges; [reflexivity|]. rewrite Nat.add_0_r in Hv. exact Hv.
  - destruct fuel as [|fuel]; [reflexivity|]. rewrite rep_loop_step. cbn [rep_stop p_successful].
    rewrite Nat.add_0_r, H. eapply IHsteps. rewrite <- Nat.add_assoc. exact Hv.
Qed.
