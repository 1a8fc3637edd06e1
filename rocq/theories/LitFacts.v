(** Facts about literals, element classes and the take family. *)
From Verif Require Import Base Core Comb Closure.
Set Implicit Arguments.

(** ** Literals *)
Lemma erase_seq_nocase : forall I (eqb : I -> I -> bool) w i1 o1 i2 o2 s rest index,
  erase (seq_loop eqb w i1 o1 s rest index) = erase (tag_no_case_loop eqb w i2 o2 s rest index).
Proof.
  induction s as [|c s IH]; intros rest index; cbn; [reflexivity|].
  destruct rest as [|x rest]; [reflexivity|]. destruct (eqb c x); cbn; [apply IH|reflexivity].
Qed.
Lemma erase_tag_nocase : forall I (eqb : I -> I -> bool) w i1 o1 i2 o2 s rest index,
  erase (tag_loop eqb w i1 o1 s rest index) = erase (tag_no_case_loop eqb w i2 o2 s rest index).
Proof.
  induction s as [|c s IH]; intros rest index; cbn; [reflexivity|].
  destruct rest as [|x rest]; [reflexivity|]. destruct (eqb c x); cbn; [apply IH|reflexivity].
Qed.

Lemma nocase_loop_spec : forall I (eqic : I -> I -> bool) w input off s rest index sh,
  erase (tag_no_case_loop eqic w input off s rest index) = sh <->
  (exists a r, rest = a ++ r /\ Forall2 (fun c x => eqic c x = true) s a /\ sh = ShSuccess w (index + length s)) \/
  (exists s1 c s2 a x r, s = s1 ++ c :: s2 /\ rest = a ++ x :: r /\ Forall2 (fun c x => eqic c x = true) s1 a /\
     eqic c x = false /\ sh = ShFailure (negb (index + length s1 =? 0))) \/
  (exists s1 c s2, s = s1 ++ c :: s2 /\ Forall2 (fun c x => eqic c x = true) s1 rest /\ sh = ShFailure Uncommitted).
Proof.
  intros I eqic w input off s. induction s as [|c s IH]; intros rest index sh.
  - cbn. split.
    + intros <-. left. exists [], rest. rewrite Nat.add_0_r. auto.
    + intros [(a & r & _ & H & ->)|[(s1 & c & s2 & a & x & r & H & _)|(s1 & c & s2 & H & _)]].
      * inv H. now rewrite Nat.add_0_r.
      * destruct s1; discriminate.
      * destruct s1; discriminate.
  - destruct rest as [|x rest]; cbn [tag_no_case_loop].
    + split.
      * intros <-. right. right. exists [], c, s. auto.
      * intros [(a & r & H & H1 & _)|[(s1 & c' & s2 & a & x & r & _ & H & _)|(s1 & c' & s2 & _ & _ & ->)]].
        -- inv H1. discriminate.
        -- destruct a; discriminate.
        -- reflexivity.
    + destruct (eqic c x) eqn:E; cbn [negb].
      * rewrite IH. split.
        -- intros [(a & r & -> & H & ->)|[(s1 & c' & s2 & a & y & r & -> & -> & H & H1 & ->)|(s1 & c' & s2 & -> & H & ->)]].
           ++ left. exists (x :: a), r. repeat split; auto. cbn. f_equal. lia.
           ++ right. left. exists (c :: s1), c', s2, (x :: a), y, r. repeat split; auto.
              now replace (index + length (c :: s1)) with (S index + length s1) by (cbn; lia).
           ++ right. right. exists (c :: s1), c', s2. auto.
        -- intros [(a & r & H0 & H & ->)|[(s1 & c' & s2 & a & y & r & H0 & H1 & H & H2 & ->)|(s1 & c' & s2 & H0 & H & ->)]].
           ++ inv H. inv H0. left. exists l', r. repeat split; auto. cbn. f_equal. lia.
           ++ destruct s1 as [|c1 s1].
              { inv H. cbn in *. inv H0. inv H1. congruence. }
              inv H. cbn in *. inv H0. inv H1. right. left. exists s1, c', s2, l', y, r. repeat split; auto.
              now replace (index + S (length s1)) with (S index + length s1) by lia.
           ++ destruct s1 as [|c1 s1]; [inv H|]. inv H. cbn in H0. inv H0. right. right. exists s1, c', s2. auto.
      * split.
        -- intros <-. right. left. exists [], c, s, [], x, rest. rewrite Nat.add_0_r. repeat split; auto.
        -- intros [(a & r & H0 & H & _)|[(s1 & c' & s2 & a & y & r & H0 & H1 & H & H2 & ->)|(s1 & c' & s2 & H0 & H & _)]].
           ++ inv H. inv H0. congruence.
           ++ destruct s1 as [|c1 s1].
              { inv H. cbn in *. inv H0. inv H1. now rewrite Nat.add_0_r. }
              inv H. cbn in *. inv H0. inv H1. congruence.
           ++ destruct s1 as [|c1 s1]; [inv H|]. inv H. cbn in H0. inv H0. congruence.
Qed.

Lemma Forall2_eq : forall I (eqb : I -> I -> bool), (forall a b, eqb a b = true <-> a = b) ->
  forall s a, Forall2 (fun c x => eqb c x = true) s a <-> s = a.
Proof.
  intros I eqb He s. induction s as [|c s IH]; intros a; split; intros H.
  - now inv H.
  - subst. constructor.
  - inv H. f_equal; [now apply He|now apply IH].
  - subst. constructor; [now apply He|now apply IH].
Qed.

Lemma lit_spec : forall I (eqb : I -> I -> bool) w input off s rest sh, (forall a b, eqb a b = true <-> a = b) ->
  erase (tag_no_case_loop eqb w input off s rest 0) = sh <->
  (prefix s rest /\ sh = ShSuccess w (length s)) \/
  (exists a c s2 x r, s = a ++ c :: s2 /\ rest = a ++ x :: r /\ c <> x /\ sh = ShFailure (negb (length a =? 0))) \/
  (exists c s2, s = rest ++ c :: s2 /\ sh = ShFailure Uncommitted).
Proof.
  intros I eqb w input off s rest sh He. rewrite nocase_loop_spec.
  assert (Hne : forall a b, eqb a b = false <-> a <> b).
  { intros a b. rewrite <- He. destruct (eqb a b); split; congruence. }
  split.
  - intros [(a & r & -> & H & ->)|[(s1 & c & s2 & a & x & r & -> & -> & H & H1 & ->)|(s1 & c & s2 & -> & H & ->)]].
    + apply Forall2_eq in H; [|exact He]. subst a. left. split; [now exists r|reflexivity].
    + apply Forall2_eq in H; [|exact He]. subst a. right. left. exists s1, c, s2, x, r. repeat split. now apply Hne.
    + apply Forall2_eq in H; [|exact He]. subst. right. right. eauto.
  - intros [[(r & ->) ->]|[(a & c & s2 & x & r & -> & -> & H & ->)|(c & s2 & -> & ->)]].
    + left. exists s, r. repeat split. now apply Forall2_eq.
    + right. left. exists a, c, s2, a, x, r. repeat split; [now apply Forall2_eq|now apply Hne].
    + right. right. exists rest, c, s2. repeat split. now apply Forall2_eq.
Qed.

Lemma erase_success : forall I A (o : outcome I A) v n, erase o = ShSuccess v n <-> o = Success v n.
Proof. intros I A [v' n'|e c| |] v n; cbn; split; intros H; inv H; reflexivity. Qed.
Lemma erase_failure : forall I A (o : outcome I A) c, erase o = ShFailure c <-> exists e, o = Failure e c.
Proof.
  intros I A [v' n'|e c'| |] c; cbn; split; intros H; try discriminate; try (destruct H; discriminate).
  - inv H. eauto.
  - destruct H as [e' H]. now inv H.
Qed.

(** ** Decision of ASCII classes *)
Definition below128 : list N := map N.of_nat (seq 0 128).
Lemma below128_all : forall x, (x < 128)%N -> In x below128.
Proof.
  intros x H. apply in_map_iff. exists (N.to_nat x). split; [apply N2Nat.id|]. apply in_seq. lia.
Qed.
(** Two boolean classes that agree below 128 and are empty above are equal. *)
Lemma class_ext : forall (P : N -> bool) (l : list N),
  forallb (fun x => Bool.eqb (P x) (existsb (N.eqb x) l)) below128 = true ->
  forallb (fun x => N.ltb x 128) l = true ->
  (forall x, (128 <= x)%N -> P x = false) ->
  forall x, P x = true <-> In x l.
Proof.
  intros P l H1 H2 H3 x. rewrite forallb_forall in H1, H2.
  destruct (N.lt_ge_cases x 128) as [L|L].
  - specialize (H1 x (below128_all L)). apply eqb_prop in H1. rewrite H1, existsb_exists. split.
    + intros (y & Hy & E). apply N.eqb_eq in E. now subst.
    + intros H. exists x. split; [exact H|apply N.eqb_refl].
  - rewrite H3 by exact L. split; [discriminate|]. intros H. apply H2 in H. apply N.ltb_lt in H. lia.
Qed.

Lemma elm_pred_spec : forall I (f : I -> bool) inp off, off <= length inp ->
  (exists x, nth_error inp off = Some x /\ f x = true /\ p_elm_pred f inp off = Success x 1) \/
  ((forall x, nth_error inp off = Some x -> f x = false) /\ exists e, p_elm_pred f inp off = Failure e Uncommitted).
Proof.
  intros I f inp off Ho. unfold p_elm_pred, p_map, p_elm_pred_ref. rewrite ps_input_ok by exact Ho.
  destruct (skipn off inp) as [|x r] eqn:E.
  - right. apply skipn_nil_iff in E. split; [|eexists; reflexivity]. intros x H.
    apply nth_error_None in E. congruence.
  - apply skipn_cons_nth in E. destruct E as (_ & E & _). destruct (f x) eqn:Ef.
    + left. exists x. auto.
    + right. split; [|eexists; reflexivity]. intros y H. congruence.
Qed.

Lemma elm_of_set_spec : forall I (f : I -> bool) inp off, off <= length inp ->
  (exists x, nth_error inp off = Some x /\ f x = true /\ p_elm_of_set f inp off = Success x 1) \/
  ((forall x, nth_error inp off = Some x -> f x = false) /\ exists e, p_elm_of_set f inp off = Failure e Uncommitted).
Proof.
  intros I f inp off Ho. unfold p_elm_of_set, p_map, p_elm_ref_of. rewrite ps_input_ok by exact Ho.
  destruct (skipn off inp) as [|x r] eqn:E.
  - right. apply skipn_nil_iff in E. split; [|eexists; reflexivity]. intros x H.
    apply nth_error_None in E. congruence.
  - apply skipn_cons_nth in E. destruct E as (_ & E & _). destruct (f x) eqn:Ef.
    + left. exists x. auto.
    + right. split; [|eexists; reflexivity]. intros y H. congruence.
Qed.

Lemma none_of_set_spec : forall I (f : I -> bool) inp off, off <= length inp ->
  (exists x, nth_error inp off = Some x /\ f x = false /\ p_none_of_set f inp off = Success x 1) \/
  ((forall x, nth_error inp off = Some x -> f x = true) /\ exists e, p_none_of_set f inp off = Failure e Uncommitted).
Proof.
  intros I f inp off Ho. unfold p_none_of_set, p_map, p_none_ref_of. rewrite ps_input_ok by exact Ho.
  destruct (skipn off inp) as [|x r] eqn:E.
  - right. apply skipn_nil_iff in E. split; [|eexists; reflexivity]. intros x H.
    apply nth_error_None in E. congruence.
  - apply skipn_cons_nth in E. destruct E as (_ & E & _). destruct (f x) eqn:Ef.
    + right. split; [|eexists; reflexivity]. intros y H. congruence.
    + left. exists x. auto.
Qed.

Lemma set_contains_in : forall l x, set_contains l x = true <-> In x l.
Proof.
  intros l x. unfold set_contains. rewrite existsb_exists. split.
  - intros (y & H & E). apply N.eqb_eq in E. now subst.
  - intros H. exists x. split; [exact H|apply N.eqb_refl].
Qed.

(** ** take_while / take_till scans *)
Lemma tw_loop_none : forall I (f : I -> bool) rest index len,
  (forall x, In x rest -> f x = false) -> forall start, tw_loop f rest index start len = (start, len).
Proof.
  induction rest as [|c rest IH]; intros index len H start; cbn; [reflexivity|].
  rewrite (H c) by now left. apply IH. intros x Hx. apply H. now right.
Qed.
Lemma tw_loop_all : forall I (f : I -> bool) p rest index len a,
  (forall x, In x p -> f x = true) ->
  tw_loop f (p ++ rest) index (Some a) len = tw_loop f rest (index + length p) (Some a) (len + length p).
Proof.
  induction p as [|c p IH]; intros rest index len a H; cbn.
  - now rewrite !Nat.add_0_r.
  - rewrite (H c) by now left. rewrite IH by (intros x Hx; apply H; now right). f_equal; lia.
Qed.
Lemma tw_loop_prefix : forall I (f : I -> bool) p rest,
  (forall x, In x p -> f x = true) -> (forall x, In x rest -> f x = false) ->
  tw_loop f (p ++ rest) 0 None 0 = (match p with [] => None | _ => Some 0 end, length p).
Proof.
  intros I f [|c p] rest Hp Hr.
  - cbn. now apply tw_loop_none.
  - cbn [List.app tw_loop]. rewrite (Hp c) by now left. rewrite tw_loop_all by (intros x Hx; apply Hp; now right).
    rewrite tw_loop_none by exact Hr. cbn. f_equal; lia.
Qed.
Lemma tw_loop_start : forall I (f : I -> bool) rest index len s l,
  tw_loop f rest index None len = (Some s, l) ->
  exists a x r, rest = a ++ x :: r /\ (forall y, In y a -> f y = false) /\ f x = true /\ s = index + length a.
Proof.
  induction rest as [|c rest IH]; intros index len s l H; cbn in H; [discriminate|].
  destruct (f c) eqn:E.
  - assert (G : forall rest index len a l s, tw_loop f rest index (Some a) len = (Some s, l) -> s = a).
    { clear. induction rest as [|c rest IH]; intros index len a l s H; cbn in H; [now inv H|].
      destruct (f c); eauto. }
    apply G in H. subst s. exists [], c, rest. repeat split; auto; try (intros y []); cbn; lia.
  - apply IH in H. destruct H as (a & x & r & -> & H1 & H2 & ->). exists (c :: a), x, r. repeat split; auto.
    + intros y [<-|Hy]; auto.
    + cbn. lia.
Qed.

Lemma tt_loop_hit : forall I (f : I -> bool) a x r index,
  (forall y, In y a -> f y = false) -> f x = true -> tt_loop f (a ++ x :: r) index = (index + length a, true).
Proof.
  induction a as [|c a IH]; intros x r index Ha Hx; cbn.
  - rewrite Hx. f_equal. lia.
  - rewrite (Ha c) by now left. rewrite IH; [f_equal; lia| |exact Hx]. intros y Hy. apply Ha. now right.
Qed.
Lemma tt_loop_miss : forall I (f : I -> bool) l index,
  (forall y, In y l -> f y = false) -> tt_loop f l index = (index + length l, false).
Proof.
  induction l as [|c l IH]; intros index H; cbn.
  - f_equal. lia.
  - rewrite (H c) by now left. rewrite IH; [f_equal; lia|]. intros y Hy. apply H. now right.
Qed.

(** Every list either has no element satisfying f or splits at the first one. *)
Lemma first_split : forall I (f : I -> bool) l,
  (forall y, In y l -> f y = false) \/
  exists a x r, l = a ++ x :: r /\ (forall y, In y a -> f y = false) /\ f x = true.
Proof.
  induction l as [|c l IH]; [left; intros y []|].
  destruct (f c) eqn:E; [right; exists [], c, l; repeat split; auto; intros y []|].
  destruct IH as [IH|(a & x & r & -> & H1 & H2)].
  - left. intros y [<-|Hy]; auto.
  - right. exists (c :: a), x, r. repeat split; auto. intros y [<-|Hy]; auto.
Qed.
