(** How deep the calls of the HOCON parser nest at least: by the nesting of the configuration read. *)
From Verif Require Import Base Core Comb Text Hocon HoconFacts HoconResolve HoconParse HoconSpec HoconRefs HoconConf Measure MeasureJson MeasureHocon.
Set Implicit Arguments.
Local Open Scope nat_scope.
Local Open Scope list_scope.

Lemma dp_attempt : forall A (g : mparser A) f, deep f g -> deep (fun v => S (f v)) (m_attempt g).
Proof.
  intros A g f H inp off v n E. specialize (H inp off). unfold m_attempt, m_one in *. destruct (g inp off) as [[x d|e [|]| |] m]; cbn in *; try discriminate.
  injection E as <- <-. apply le_n_S. now apply H with (n := d).
Qed.
Lemma dp_id : forall A (g : mparser A) f, deep f g -> deep (fun v => S (f v)) (m_id g).
Proof. intros A g f H. unfold m_id. apply dp_map with (f := f); [exact H|]. intros v. reflexivity. Qed.

Section Deep.
Variable D : Type.
Variable dec : list N -> option D.
Notation cv := (cv D).
Notation key := (list N).
Notation entries := (list (key * cv)).
(** How many arrays and objects of a value contain one another.  A link holds the values a key was given one after the other. *)
Fixpoint nested (v : cv) : nat :=
  match v with
  | CArr l => S (list_max (map nested l))
  | CObj m => S (list_max (map (fun kv => nested (snd kv)) m))
  | CLink p x => Nat.max (nested p) (nested x)
  | _ => 0
  end.
Notation below k := (Forall (fun kv : key * cv => nested (snd kv) <= k)).
Lemma nested_arr : forall l k, nested (CArr l) <= S k <-> Forall (fun v => nested v <= k) l.
Proof. intros l k. cbn [nested]. rewrite <- Nat.succ_le_mono, list_max_le, Forall_map. reflexivity. Qed.
Lemma nested_obj : forall m k, nested (CObj m) <= S k <-> below k m.
Proof. intros m k. cbn [nested]. rewrite <- Nat.succ_le_mono, list_max_le, Forall_map. reflexivity. Qed.
Lemma below_set : forall m k v n, below n m -> nested v <= n -> below n (hm_set m k v).
Proof.
  intros m k v n H Hv. induction H as [|[k' x] m Hx H IH]; cbn; [now repeat constructor|].
  destruct (list_eq_dec N.eq_dec k k'); constructor; auto.
Qed.
Lemma below_get : forall m k v n, below n m -> hm_get m k = Some v -> nested v <= n.
Proof. intros m k v n H E. apply get_in in E. now apply (proj1 (Forall_forall _ _) H) in E. Qed.
Lemma nested_push : forall v c n, nested v <= n -> nested c <= n -> nested (push v c) <= n.
Proof. intros v c n Hv Hc. unfold push. destruct c; cbn [nested] in *; lia. Qed.
Lemma nested_merge_link : forall r l n, (forall l, nested l <= n -> no_link l -> nested (merge_with l r) <= n) -> nested l <= n -> nested (merge_with l r) <= n.
Proof.
  intros r l n K. induction l as [| | | | | | | | | |p IHp x IHx] using cv_ind; intros Hl; try (apply K; [exact Hl|discriminate]).
  assert (P : nested (push (CLink p x) (merge_with x r)) <= n) by (cbn [nested] in Hl; apply nested_push; [cbn [nested]; lia|apply IHx; lia]).
  destruct r; solve [exact P|exact Hl].
Qed.
Lemma nested_merge : forall r l n, nested r <= n -> nested l <= n -> nested (merge_with l r) <= n.
Proof.
  intros r. induction r as [|b|s|d|d u|lr Hlr|m Hm|o lr Ho Hlr|o path ms Ho|me f|p v Hp Hv] using cv_ind2; intros l0 n Hr Hl0;
    apply nested_merge_link; try exact Hl0; clear l0 Hl0; intros l Hl Hn; destruct l; try (now destruct (Hn l1 l2)); try exact Hl; (destruct n as [|n]; [cbn in Hl; lia|]).
  - cbn [merge_with merge]. apply nested_arr in Hr. apply nested_arr in Hl. apply (nested_arr (l ++ lr)). apply Forall_app. now split.
  - rewrite merge_obj. apply nested_obj in Hr. apply nested_obj in Hl. apply nested_obj. clear Hn. rename m0 into m2. unfold merge_maps.
    revert m2 Hl. induction m as [|[k x] m IH]; intros m2 M2; [exact M2|].
    inversion Hm as [|? ? Hx Hm']; subst. inversion Hr as [|? ? Nx Nm]; subst. cbn [fold_left fst snd] in *. apply IH; [exact Hm'|exact Nm|].
    destruct (hm_get m2 k) as [y|] eqn:E; apply below_set; try assumption. apply Hx; [assumption|]. now apply (below_get _ M2 E).
Qed.
Lemma below_obj_fold : forall n ps, below n ps -> below n (obj_fold ps).
Proof.
  intros n ps H. unfold obj_fold. assert (K : forall m, below n m -> below n (fold_left (@obj_insert D) ps m)).
  { induction H as [|[k v] ps Hv H IH]; intros m Hm; [exact Hm|]. cbn [fold_left]. apply IH. unfold obj_insert. cbn [fst snd] in *.
    destruct (hm_get m k) as [y|] eqn:E; apply below_set; try assumption. apply nested_push; [now apply (below_get _ Hm E)|exact Hv]. }
  apply K. constructor.
Qed.
Lemma below_top_fold : forall n ps, below n ps -> below n (top_fold ps).
Proof.
  intros n ps H. unfold top_fold. assert (K : forall m, below n m -> below n (fold_left (@top_insert D) ps m)).
  { induction H as [|[k v] ps Hv H IH]; intros m Hm; [exact Hm|]. cbn [fold_left]. apply IH. unfold top_insert. cbn [fst snd] in *.
    destruct (hm_get m k) as [y|] eqn:E; apply below_set; try assumption. apply nested_merge; [exact Hv|now apply (below_get _ Hm E)]. }
  apply K. constructor.
Qed.
Notation widest ps := (most (fun kv : key * cv => nested (snd kv)) ps).
Lemma below_widest : forall ps : entries, below (widest ps) ps.
Proof. intros ps. unfold most. rewrite <- (Forall_map (fun kv : key * cv => nested (snd kv)) (fun x => x <= _)). apply list_max_le. constructor. Qed.
Lemma nested_obj_fold : forall ps, nested (CObj (obj_fold ps)) <= S (widest ps).
Proof. intros ps. apply nested_obj, below_obj_fold, below_widest. Qed.
Lemma nested_top_fold : forall ps, nested (CObj (top_fold ps)) <= S (widest ps).
Proof. intros ps. apply nested_obj, below_top_fold, below_widest. Qed.
Definition value_deep (v : cv) := 10 * nested v.
Definition pair_deep (kv : key * cv) := 10 * nested (snd kv) - 3.
Lemma most_le : forall A (f h : A -> nat) l, (forall x, f x <= h x) -> most f l <= most h l.
Proof. intros A f h l H. unfold most. induction l as [|x l IH]; cbn [map list_max fold_right]; [lia|]. change (fold_right Nat.max 0) with list_max. specialize (H x). lia. Qed.
Lemma most_sub : forall A (f : A -> nat) l k, most (fun v => f v - k) l = most f l - k.
Proof. intros A f l k. unfold most. induction l as [|x l IH]; cbn [map list_max fold_right]; [lia|]. change (fold_right Nat.max 0) with list_max. rewrite IH. lia. Qed.
Lemma dp_zero : forall A (g : mparser A) f, (forall v, f v = 0) -> deep f g.
Proof. intros A g f H inp off v n E. rewrite H. lia. Qed.
(** Parsers of values without arrays and objects *)
Notation plain g := (deep value_deep g).
Lemma pl_map : forall A (g : mparser A) k, (forall x, nested (k x) = 0) -> plain (m_map g k).
Proof. intros A g k H. apply dp_map with (f := fun _ => 0); [now apply dp_zero|]. intros v. unfold value_deep. rewrite H. lia. Qed.
Lemma pl_or : forall g h : mparser cv, plain g -> plain h -> plain (m_or g h).
Proof. intros g h G H. eapply dp_le; [apply dp_or; [exact G|exact H]|]. cbn beta. lia. Qed.
Lemma pl_attempt : forall g : mparser cv, plain g -> plain (m_attempt g).
Proof. intros g G. eapply dp_le; [apply dp_attempt; exact G|]. cbn beta. lia. Qed.
Lemma pl_spaced : forall g : mparser cv, plain g -> plain (mf_spaced g).
Proof. intros g G. unfold mf_spaced, m_surround. eapply dp_le; [eapply dp_skip_left, dp_skip_right, G|]. cbn beta. lia. Qed.
Ltac pl := repeat first [apply pl_or | apply pl_attempt | apply pl_spaced | apply pl_map; reflexivity].
Lemma pl_reference : plain (mf_reference_cv D).
Proof. unfold mf_reference_cv. pl. Qed.
Lemma pl_enumeration : plain (mf_enumeration_cv D).
Proof. unfold mf_enumeration_cv. pl. Qed.
Lemma pl_simple : plain (mf_simple_cv dec).
Proof. unfold mf_simple_cv, mf_duration_value, mf_string_cv. pl. Qed.
Lemma pl_include : plain (mf_include_cv D).
Proof. unfold mf_include_cv. pl. Qed.
Section Rec.
Variable value : mparser cv.
Variable prop : mparser (key * cv).
Hypothesis Dv : deep value_deep value.
Hypothesis Dp : deep pair_deep prop.
Lemma dp_array : deep (fun v => 10 * nested v - 5) (mf_array_cv value).
Proof.
  unfold mf_array_cv. apply dp_map with (f := fun l => 3 + Nat.max 1 (most (fun v => S (value_deep v)) l)).
  - apply dp_group; [apply dp_lazy, Dv|intros inp off; apply one_pos].
  - intros l. cbn [nested]. pose proof (most_S value_deep l) as M. unfold value_deep in *. rewrite most_mul in M. unfold most in *. lia.
Qed.
Lemma dp_object : deep (fun v => 10 * nested v - 7) (mf_object_cv prop).
Proof.
  unfold mf_object_cv. apply dp_le with (f := fun v => S (10 * nested v - 8)); [|intros v; lia]. apply (@dp_id _ _ (fun v => 10 * nested v - 8)).
  apply dp_map with (f := fun l => 3 + Nat.max 1 (most (fun kv => S (pair_deep kv)) l)).
  - apply dp_group; [apply dp_lazy, Dp|intros inp off; apply one_pos].
  - intros l. pose proof (nested_obj_fold l) as L. pose proof (most_S pair_deep l) as M. unfold pair_deep in *. rewrite most_sub, most_mul in M. lia.
Qed.
Lemma dp_property : deep pair_deep (mf_property_step value prop).
Proof.
  unfold mf_property_step, pair_deep. apply dp_le with (f := fun kv : key * cv => S (S (10 * nested (snd kv) - 5))); [|intros v; lia].
  apply (@dp_and2 _ _ _ _ (fun v => S (10 * nested v - 5))), (@dp_or _ _ _ (fun v => 10 * nested v - 5)); [|exact dp_array].
  apply dp_le with (f := fun v => S (10 * nested v - 6)); [|intros v; lia]. apply (@dp_or _ _ _ (fun v => 10 * nested v - 6)).
  - apply dp_le with (f := fun v => S (S (S (10 * nested v)))); [|intros v; lia]. apply dp_attempt with (f := fun v => S (S (10 * nested v))), dp_skip_left with (f := fun v => S (10 * nested v)), dp_lazy, Dv.
  - apply dp_le with (f := fun v => S (10 * nested v - 7)); [|intros v; lia]. apply dp_attempt with (f := fun v => 10 * nested v - 7), dp_object.
Qed.
Lemma dp_value : deep value_deep (mf_value_step dec value prop).
Proof.
  unfold mf_value_step, mf_spaced, m_surround. apply dp_le with (f := fun v => S (S (S (10 * nested v - 3)))); [|intros v; unfold value_deep; lia].
  assert (W : forall (g : mparser cv) k, plain g -> deep (fun v => 10 * nested v - k) g).
  { intros g k G. eapply dp_le; [exact G|]. intros v. unfold value_deep. lia. }
  apply (@dp_skip_left _ _ _ _ (fun v => S (S (10 * nested v - 3)))), (@dp_skip_right _ _ _ _ (fun v => S (10 * nested v - 3))).
  apply (@dp_or _ _ _ (fun v => 10 * nested v - 3)); [|apply W, pl_enumeration].
  apply dp_le with (f := fun v => S (10 * nested v - 4)); [|intros v; lia]. apply (@dp_or _ _ _ (fun v => 10 * nested v - 4)); [|apply W, pl_attempt, pl_simple].
  apply dp_le with (f := fun v => S (10 * nested v - 5)); [|intros v; lia]. apply (@dp_or _ _ _ (fun v => 10 * nested v - 5)); [|apply W, pl_attempt, pl_reference].
  apply dp_le with (f := fun v => S (10 * nested v - 6)); [|intros v; lia]. apply (@dp_or _ _ _ (fun v => 10 * nested v - 6)).
  - eapply dp_le; [apply dp_attempt, dp_array|]. intros v. cbn beta. lia.
  - eapply dp_le; [apply dp_attempt, dp_object|]. intros v. cbn beta. lia.
Qed.
Definition list_deep (l : list cv) := 10 * most nested l - 7.
Lemma list_deep_rep : forall (g : mparser cv) r j, 1 <= j -> (forall inp off, 1 <= hgt (snd (g inp off))) -> deep (fun v => 10 * nested v - 7 + j) g -> deep list_deep (m_rep g r (None : option (mparser unit))).
Proof.
  intros g r j Hj P H. eapply dp_le; [apply dp_rep with (f := fun v => 10 * nested v - 7); [eapply dp_le; [exact H|cbn beta; lia]|exact P]|].
  intros l. cbn beta. unfold list_deep. rewrite most_sub, most_mul. lia.
Qed.
Lemma or_pos : forall A (g h : mparser A) inp off, 1 <= hgt (snd (m_or g h inp off)).
Proof. intros A g h inp off. unfold m_or. destruct (g inp off) as [[x d|e [|]| |] m]; try (cbn; lia). destruct (h inp off). cbn. lia. Qed.
Lemma dp_config : deep list_deep (mf_config_step value prop).
Proof.
  unfold mf_config_step. apply dp_le with (f := fun l => S (list_deep l - 1)); [|intros l; lia]. apply (@dp_or _ _ _ (fun l => list_deep l - 1)).
  - eapply dp_le; [apply dp_or with (f := fun l => list_deep l - 2)|intros l; cbn beta; lia].
    + eapply dp_le; [apply dp_attempt with (f := fun l => list_deep l - 3)|intros l; cbn beta; lia].
      apply dp_map with (f := fun ps => S (Nat.max 1 (most (fun kv => S (pair_deep kv)) ps))).
      * apply dp_rep; [apply dp_id, dp_property|intros inp off; apply one_pos].
      * intros ps. unfold list_deep. pose proof (nested_top_fold ps) as L. pose proof (most_S pair_deep ps) as M. unfold pair_deep in *. rewrite most_sub, most_mul in M.
        change (most nested [CObj (top_fold ps)]) with (Nat.max (nested (CObj (top_fold ps))) 0). lia.
    + eapply dp_le; [apply dp_attempt with (f := list_deep)|intros l; cbn beta; lia].
      apply list_deep_rep with (j := 1); [lia|intros inp off; apply one_pos|].
      apply dp_map with (f := fun _ => 0); [now apply dp_zero|]. intros v. cbn. lia.
  - apply dp_le with (f := list_deep); [|intros l; lia]. apply list_deep_rep with (j := 1); [lia|intros inp off; apply or_pos|]. apply dp_le with (f := fun v => S (10 * nested v - 7)); [|intros v; lia]. apply (@dp_or _ _ _ (fun v => 10 * nested v - 7)).
    + eapply dp_le; [apply dp_attempt, dp_object|]. intros v. cbn beta. lia.
    + eapply dp_le; [apply dp_array|]. intros v. cbn beta. lia.
Qed.
End Rec.
Lemma dp_fuel : forall n, deep value_deep (mf_value_fuel dec n) /\ deep pair_deep (mf_property_fuel dec n).
Proof.
  induction n as [|n [IH1 IH2]]; [split; intros inp off v k E; discriminate|].
  split; intros inp off; cbn [mf_value_fuel mf_property_fuel]; [now apply dp_value|now apply dp_property].
Qed.
(** A configuration read nests the calls at least ten deep for each of its levels. *)
Theorem hocon_deep : forall text cs n, hocon_p dec text 0 = Success cs n -> 10 * most nested cs <= hgt (snd (mf_hocon_p dec text 0)) + 5.
Proof.
  intros text cs n E. rewrite <- (ef_hocon dec text 0) in E. unfold mf_hocon_p, mf_hocon_fuel in *. destruct (dp_fuel (S (length text))) as [D1 D2].
  pose proof (dp_config D1 D2) as H. apply (dp_skip_left mf_space_or_comment) in H.
  apply (@dp_skip_right _ unit _ (m_leaf p_end)) in H. apply H in E. unfold list_deep in E. lia.
Qed.
End Deep.
