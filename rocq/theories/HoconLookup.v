(** Facts about path lookup, units and resolution in the hocon model. *)
From Coq Require Import Permutation.
From Verif Require Import Base Core Comb Closure RepFacts LitFacts Hoare Runs Weak Agree Text Json JsonSpec JsonFacts Hocon HoconFacts HoconParse.
Set Implicit Arguments.
Local Open Scope string_scope.
Local Open Scope nat_scope.
Local Open Scope list_scope.

(** ** Parsers that do not fail *)
Lemma repeat_no_fail : forall A B (p : parser N A) r (sep : parser N B) inp off v n,
  bounded p -> bounded sep -> off <= length inp -> min_ok (rg_start r) 1 -> p inp off = Success v n ->
  forall e c, p_repeat_sep p r (Some sep) inp off <> Failure e c.
Proof.
  intros A B p r sep inp off v n Hp Hs Ho Hm E e c F. pose proof (repeat_sep_uncommitted _ _ _ _ _ F) as ->.
  destruct (proj1 (@repeat_sep_failure N A B p r sep inp off Hp Hs Ho)) as (vs & l & H & Hn); [eauto|].
  destruct H as [(e' & c' & K)|v' n' vs k K Ht]; [congruence|]. apply Hn. destruct (rg_start r); cbn in *; try lia; exact I.
Qed.
Lemma many_no_fail : forall A (p : parser N A) r inp off v n, bounded p -> off <= length inp -> min_ok (rg_start r) 1 ->
  p inp off = Success v n -> forall e c, p_repeat p r inp off <> Failure e c.
Proof.
  intros A p r inp off v n Hp Ho Hm E e c F. unfold p_repeat, p_repeat_sep in F. rewrite repeat_none in F.
  revert F. eapply repeat_no_fail; eauto using bounded_unit.
Qed.
Lemma many0_no_fail : forall A (p : parser N A) inp off, bounded p -> off <= length inp -> forall e c, p_many0 p inp off <> Failure e c.
Proof.
  intros A p inp off Hp Ho e c F. unfold p_many0, p_repeat, p_repeat_sep in F. rewrite repeat_none in F.
  fold (p_repeat_sep p (rg_from 0) (Some (p_successful (I := N) tt)) inp off) in F.
  pose proof (repeat_sep_uncommitted _ _ _ _ _ F) as ->.
  destruct (proj1 (@repeat_sep_failure N A unit p (rg_from 0) (p_successful tt) inp off Hp (bounded_unit (I := N)) Ho)) as (vs & l & H & Hn); [eauto|].
  apply Hn. cbn. lia.
Qed.
Lemma soc_succeeds : forall inp off, off <= length inp -> exists n, space_or_comment inp off = Success tt n /\ off + n <= length inp.
Proof.
  intros inp off Ho. pose proof (h_soc inp Ho) as H. destruct (space_or_comment inp off) as [[] n|e c| |] eqn:E; try contradiction.
  - exists n. split; [reflexivity|apply H].
  - exfalso. clear H. unfold space_or_comment, p_discard in E.
    destruct (p_or (p_attempt comment) hspace inp off) as [v n|e' c'| |] eqn:E2; try discriminate. unfold p_or, p_attempt in E2.
    destruct (comment inp off) as [v n|e1 c1| |]; try discriminate. cbn in E2.
    replace (match (if c1 then Failure e1 false else Failure e1 c1) with Success value len => Success value len | Failure e c => if negb c then hspace inp off else Failure e c | Panic => Panic | Diverge => Diverge end) with (hspace inp off) in E2 by (destruct c1; reflexivity). unfold hspace, p_collect in E2.
    destruct (p_many0 (p_elm_ref_of (set_contains [32; 9; 13; 10]%N)) inp off) as [v n|e3 c3| |] eqn:E3; try discriminate.
    + destruct (slice_with_len inp off n); discriminate.
    + revert E3. apply many0_no_fail; [|exact Ho]. eapply h_bounded. apply h_elm_ref_of with (R := any). intros; exact I.
Qed.
Lemma path_char_ascii : forall x, path_char x -> (x < 128)%N /\ ~ In x [32; 9; 13; 10]%N /\ x <> 35%N /\ x <> 47%N /\ x <> 46%N.
Proof.
  intros x [H|H].
  - unfold is_ascii_alpha, in_range in H. rewrite orb_true_iff, !andb_true_iff, !N.leb_le in H. cbn in H. cbn. repeat split; lia.
  - cbn in H. destruct H as [<-|[<-|[]]]; repeat split; try (vm_compute; congruence); cbn; intuition discriminate.
Qed.
(** Before a path nothing is skipped. *)
Lemma soc_at_path : forall x l, path_char x -> space_or_comment (x :: l) 0 = Success tt 0.
Proof.
  intros x l H. destruct (path_char_ascii H) as (_ & Hw & H1 & H2 & _).
  assert (A : acc space_or_comment [] (x :: l) tt).
  { assert (S : acc hspace [] (x :: l) []).
    { unfold hspace. eapply a_collect with (v := []). eapply a_many0; [constructor|]. apply r_elm_ref_of. cbn -[set_contains]. now apply set_not_in. }
    unfold space_or_comment. eapply a_discard, a_or2; [|exact S]. eapply r_attempt, r_collect.
    change ([] ++ x :: l) with ([] ++ x :: l). eapply r_and2; [exact S|]. eapply r_many1, r_and1. unfold comment_head.
    apply r_or; [eapply r_attempt, r_collect, r_seqN|eapply r_collect, r_elm_ref]; cbn; congruence. }
  exact (A []).
Qed.
Lemma elm_path : forall x l, path_char x -> p_or p_elm_alpha (p_elm_of (bs "-_")) (x :: l) 0 = Success x 1.
Proof.
  intros x l H. assert (A : acc (p_or p_elm_alpha (p_elm_of (bs "-_"))) [x] l x).
  { destruct (is_ascii_alpha x) eqn:E.
    - apply a_or1. unfold p_elm_alpha. now apply a_elm_pred.
    - destruct H as [H|H]; [congruence|]. apply a_or2; [apply r_elm_pred; exact E|now apply a_elm_of]. }
  exact (A []).
Qed.
Lemma path_succeeds : forall x l, path_char x -> exists v n, path_p (x :: l) 0 = Success v n /\ n <= length (x :: l).
Proof.
  intros x l H. pose proof (h_path (x :: l) (Nat.le_0_l _)) as Hp.
  destruct (path_p (x :: l) 0) as [v n|e c| |] eqn:E; try contradiction; [exists v, n; split; [reflexivity|apply Hp]|].
  exfalso. clear Hp. unfold path_p in E. pose proof (h_path_raw (x :: l) (Nat.le_0_l _)) as Hr. unfold p_map_res in E.
  destruct (p_collect (p_many1_sep path_element (p_elm (chr "."))) (x :: l) 0) as [v n|e1 c1| |] eqn:E1; try contradiction.
  - destruct Hr as (_ & -> & Ht). rewrite ascii_utf8 in E; [discriminate|]. destruct Ht as [_ Ht]. eapply Forall_impl; [|exact Ht].
    intros y [Hy| ->]; [now apply path_char_ascii in Hy|reflexivity].
  - clear Hr E. unfold p_collect in E1. pose proof (h_path_element (x :: l) (Nat.le_0_l _)) as He.
    destruct (p_many1_sep path_element (p_elm (chr ".")) (x :: l) 0) as [v n|e2 c2| |] eqn:E2; try discriminate.
    + destruct (slice_with_len _ _ _); discriminate.
    + assert (Bp : bounded path_element) by (eapply h_bounded, h_path_element).
      assert (Bd : bounded (p_elm (chr "."))) by (eapply h_bounded, h_elm with (R := any); exact I).
      destruct (path_element (x :: l) 0) as [v n|e3 c3| |] eqn:E3; try contradiction.
      * revert E2. eapply repeat_no_fail; eauto; cbn; lia.
      * unfold path_element, p_collect in E3. destruct (p_many1 (p_or p_elm_alpha (p_elm_of (bs "-_"))) (x :: l) 0) as [v n|e4 c4| |] eqn:E4; try discriminate.
        { destruct (slice_with_len _ _ _); discriminate. }
        { revert E4. eapply many_no_fail; [|cbn; lia|cbn; lia|now apply elm_path].
          eapply h_bounded. apply h_or; [apply h_elm_pred with (R := any)|apply h_elm_of with (R := any)]; intros; exact I. }
Qed.
(** A path whose first character is a letter, '-' or '_' passes the check, whatever follows. *)
Lemma check_path_ok : forall x l, path_char x -> check_path (x :: l) = ROk tt.
Proof.
  intros x l H. unfold check_path, key_p, spaced, p_surround, p_skip_left, p_skip_right. rewrite (soc_at_path l H). cbn [Nat.add].
  destruct (path_succeeds l H) as (v & n & E & Hn). unfold p_or, p_attempt. rewrite E. cbn [with_uncommitted]. cbn [Nat.add].
  destruct (soc_succeeds _ Hn) as (m & -> & _). reflexivity.
Qed.

(** ** Lookup *)
Section Lookup.
Variable D : Type.
Notation cv := (cv D).
Notation key := (list N).

Lemma split_dot_len : forall s a t, split_dot s = (a, Some t) -> s = a ++ 46%N :: t.
Proof.
  induction s as [|c s IH]; intros a t E; cbn in E; [discriminate|]. destruct (N.eqb_spec c 46) as [->|Hn].
  - inv E. reflexivity.
  - destruct (split_dot s) as [a' r] eqn:Es. inv E. cbn. f_equal. now apply IH.
Qed.
Lemma split_dot_none : forall s a, split_dot s = (a, None) -> s = a.
Proof.
  induction s as [|c s IH]; intros a E; cbn in E; [now inv E|]. destruct (N.eqb_spec c 46); [discriminate|].
  destruct (split_dot s) as [a' r] eqn:Es. inv E. f_equal. now apply IH.
Qed.
Definition no_dot (k : key) : Prop := ~ In 46%N k.
Lemma split_dot_app : forall k t, no_dot k -> split_dot (k ++ 46%N :: t) = (k, Some t).
Proof.
  induction k as [|c k IH]; intros t H; cbn; [reflexivity|]. destruct (N.eqb_spec c 46) as [->|_]; [exfalso; apply H; now left|].
  rewrite IH; [reflexivity|]. intros K. apply H. now right.
Qed.
Lemma split_dot_all : forall k, no_dot k -> split_dot k = (k, None).
Proof.
  induction k as [|c k IH]; intros H; cbn; [reflexivity|]. destruct (N.eqb_spec c 46) as [->|_]; [exfalso; apply H; now left|].
  rewrite IH; [reflexivity|]. intros K. apply H. now right.
Qed.

(** With fuel beyond the length of the path, more fuel changes nothing; the two lookups agree. *)
Lemma get_fuel : forall n m (v : cv) path, length path < n -> length path < m -> get_value_fuel n v path = get_value_fuel m v path.
Proof.
  induction n as [|n IH]; intros m v path Hn Hm; [lia|]. destruct m as [|m]; [lia|]. cbn [get_value_fuel].
  destruct (check_path path); cbn [rbind]; try reflexivity. destruct (split_dot path) as [k [t|]] eqn:E; [|reflexivity].
  apply split_dot_len in E. subst path. rewrite app_length in *. cbn [List.length] in *. destruct v; try reflexivity.
  destruct (hm_get m0 k); [|reflexivity]. apply IH; lia.
Qed.
Lemma get_returns : forall n (v : cv) path, length path < n -> get_value_fuel n v path <> RDiverge.
Proof.
  induction n as [|n IH]; intros v path Hn; [lia|]. cbn [get_value_fuel]. pose proof (@check_path_returns path) as C.
  destruct (check_path path); cbn [rbind]; try discriminate; [|congruence]. destruct (split_dot path) as [k [t|]] eqn:E.
  - apply split_dot_len in E. subst path. rewrite app_length in *. cbn [List.length] in *. destruct v; try discriminate.
    destruct (hm_get m k); [|discriminate]. apply IH; lia.
  - destruct v; try discriminate. destruct (hm_get m k); discriminate.
Qed.
Lemma has_get : forall n (v : cv) path,
  has_path_fuel n v path = rbind (get_value_fuel n v path) (fun o => ROk (match o with Some _ => true | None => false end)).
Proof.
  induction n as [|n IH]; intros v path; [reflexivity|]. cbn [get_value_fuel has_path_fuel].
  destruct (check_path path); cbn [rbind]; try reflexivity. destruct (split_dot path) as [k [t|]]; destruct v; try reflexivity;
    destruct (hm_get m k); try reflexivity. apply IH.
Qed.

(** Descending along keys; a chain stands for its newest value. *)
Definition newest (c x : cv) : Prop := (exists p, c = CLink p x) \/ (c = x /\ forall p y, c <> CLink p y).
Inductive reaches : list key -> cv -> cv -> Prop :=
| reach_last : forall k m c x, hm_get m k = Some c -> newest c x -> reaches [k] (CObj m) x
| reach_more : forall k ks m c x y, ks <> [] -> hm_get m k = Some c -> newest c x -> reaches ks x y -> reaches (k :: ks) (CObj m) y.
Lemma newest_iff : forall c x, newest c x <-> latest c = x.
Proof.
  intros c x. split.
  - intros [[p ->]|[-> H]]; [reflexivity|]. destruct x; try reflexivity. now destruct (H x1 x2).
  - intros <-. destruct c; try (right; split; [reflexivity|discriminate]). left. now eexists.
Qed.
(** Path components: not empty; letters, '-' and '_' only. *)
Definition component (k : key) : Prop := k <> [] /\ Forall path_char k.
Fixpoint dotted (ks : list key) : list N :=
  match ks with [] => [] | [k] => k | k :: rest => k ++ [46%N] ++ dotted rest end.
Lemma component_no_dot : forall k, component k -> no_dot k.
Proof. intros k [_ H] Hi. apply (proj1 (Forall_forall _ _) H) in Hi. now apply path_char_ascii in Hi. Qed.
Lemma check_dotted : forall k t, component k -> check_path (k ++ t) = ROk tt.
Proof. intros k t [H1 H2]. destruct k as [|x k]; [congruence|]. inv H2. cbn. now apply check_path_ok. Qed.
Lemma get_dotted : forall ks (v : cv) n, ks <> [] -> Forall component ks -> length (dotted ks) < n ->
  exists o, get_value_fuel n v (dotted ks) = ROk o /\ forall x, o = Some x <-> reaches ks v x.
Proof.
  induction ks as [|k ks IH]; intros v n Hne Hc Hn; [congruence|]. clear Hne. inv Hc. destruct n as [|n]; [lia|].
  cbn [get_value_fuel]. destruct ks as [|k2 ks].
  - cbn [dotted] in *. assert (C : check_path k = ROk tt) by (pose proof (@check_dotted k [] H1) as C; now rewrite app_nil_r in C). rewrite C. cbn [rbind].
    rewrite split_dot_all by now apply component_no_dot.
    assert (NO : forall w : cv, (forall m, w <> CObj m) -> exists o, ROk (None : option cv) = ROk o /\ forall x, o = Some x <-> reaches [k] w x).
    { intros w Hw. eexists. split; [reflexivity|]. intros x. split; [discriminate|]. intros K. inv K; now destruct (Hw m). }
    destruct v as [|b|s|d|d u|l|m|o l|o path ms|me f|p v]; try (apply NO; discriminate).
    destruct (hm_get m k) as [c|] eqn:E; (eexists; split; [reflexivity|]); intros x; split.
    + intros K. inv K. eapply reach_last; [exact E|]. now apply newest_iff.
    + intros K. inversion K as [? ? c' ? Eg En|]; subst; [|congruence]. rewrite E in Eg. injection Eg as <-. apply newest_iff in En. now rewrite En.
    + discriminate.
    + intros K. inv K; congruence.
  - change (dotted (k :: k2 :: ks)) with (k ++ 46%N :: dotted (k2 :: ks)) in *. rewrite check_dotted by assumption. cbn [rbind].
    rewrite split_dot_app by now apply component_no_dot.
    assert (NO : forall w : cv, (forall m, w <> CObj m) -> exists o, ROk (None : option cv) = ROk o /\ forall x, o = Some x <-> reaches (k :: k2 :: ks) w x).
    { intros w Hw. eexists. split; [reflexivity|]. intros x. split; [discriminate|]. intros K. inv K; now destruct (Hw m). }
    destruct v as [|b|s|d|d u|l|m|o l|o path ms|me f|p v]; try (apply NO; discriminate).
    rewrite app_length in Hn. cbn [List.length] in Hn. destruct (hm_get m k) as [c|] eqn:E.
    + destruct (IH (latest c) n ltac:(discriminate) H2 ltac:(lia)) as (o & E1 & E2). exists o. split; [exact E1|]. intros x. rewrite E2. split.
      * intros K. eapply reach_more; [discriminate|exact E|now apply newest_iff|exact K].
      * intros K. inversion K as [|? ? ? c' ? ? ? Eg En Er]; subst. rewrite E in Eg. injection Eg as <-. apply newest_iff in En. now rewrite En.
    + eexists. split; [reflexivity|]. intros x. split; [discriminate|]. intros K. inv K. congruence.
Qed.
End Lookup.

(** ** Time units *)
Lemma seq_not_prefix : forall w l, (forall r, l <> w ++ r) -> rej (p_attempt (p_seqN w)) l false.
Proof.
  intros w l H pre. assert (Hs : hoare (p_seqN w) (fun _ s => s = w)) by (apply h_seqN; reflexivity).
  specialize (Hs (pre ++ l) (length pre) ltac:(rewrite app_length; lia)). unfold p_attempt.
  destruct (p_seqN w (pre ++ l) (length pre)) as [v n|e c| |]; try contradiction; [|exists e; destruct c; reflexivity].
  exfalso. destruct Hs as [_ Hs]. rewrite skipn_app, Nat.sub_diag, skipn_all in Hs. cbn in Hs.
  apply (H (skipn n l)). rewrite <- Hs. symmetry. apply firstn_skipn.
Qed.
