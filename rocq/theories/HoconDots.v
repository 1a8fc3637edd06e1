(** Several dotted keys: what the expansion makes of them when none of them is a prefix of another. *)
From Verif Require Import Base Core Closure Text Hocon HoconFacts HoconLookup HoconResolve.
Set Implicit Arguments.
Local Open Scope nat_scope.
Local Open Scope list_scope.

Section Dots.
Variable D : Type.
Notation cv := (cv D).
Notation key := (list N).

(** Descending through objects only. *)
Fixpoint at_path (ks : list key) (c : cv) : option cv :=
  match ks with
  | [] => Some c
  | k :: ks => match c with CObj m => match hm_get m k with Some x => at_path ks x | None => None end | _ => None end
  end.
Definition is_obj (c : cv) : Prop := exists m, c = CObj m.
(** [p] is a prefix of [q]; a proper prefix. *)
Definition above (p q : list key) : Prop := exists r, q = p ++ r.
Definition strictly_above (p q : list key) : Prop := exists k r, q = p ++ k :: r.

Lemma at_app : forall p r c, at_path (p ++ r) c = match at_path p c with Some x => at_path r x | None => None end.
Proof.
  induction p as [|k p IH]; intros r c; [reflexivity|]. cbn [app at_path]. destruct c; try reflexivity. destruct (hm_get m k); [apply IH|reflexivity].
Qed.
Lemma at_nest : forall p v r, at_path (p ++ r) (nest p v) = at_path r v.
Proof.
  induction p as [|k p IH]; intros v r; [reflexivity|]. cbn [app at_path nest fold_right hm_get]. destruct (list_eq_dec N.eq_dec k k); [apply IH|congruence].
Qed.
Lemma nest_obj : forall k p (v : cv), is_obj (nest (k :: p) v).
Proof. intros k p v. eexists. reflexivity. Qed.
Lemma nest_above : forall p (v : cv) q, strictly_above q p -> exists x, at_path q (nest p v) = Some x /\ is_obj x.
Proof.
  intros p v q (k & r & ->). exists (nest (k :: r) v). split; [|apply nest_obj]. 
  assert (E : nest (q ++ k :: r) v = nest q (nest (k :: r) v)) by (unfold nest; apply fold_right_app). rewrite E.
  rewrite <- (app_nil_r q) at 1. now rewrite at_nest.
Qed.
Lemma nest_only : forall p (v : cv) q, at_path q (nest p v) <> None -> above q p \/ above p q.
Proof.
  induction p as [|k p IH]; intros v q H; [right; now exists q|]. destruct q as [|j q]; [left; now eexists|]. cbn in H.
  destruct (list_eq_dec N.eq_dec j k) as [->|Hn].
  - destruct (list_eq_dec N.eq_dec k k) as [_|]; [|congruence]. destruct (IH _ _ H) as [(r & E)|(r & E)]; [left|right]; exists r; cbn; now rewrite <- E.
  - destruct (list_eq_dec N.eq_dec k j); [congruence|]. now elim H.
Qed.

(** Inserting a path where nothing is yet. *)
Definition free (p : list key) (c : cv) : Prop := at_path p c = None /\ forall q x, strictly_above q p -> at_path q c = Some x -> is_obj x.
Lemma insert_path : forall p v c, p <> [] -> is_obj c -> free p c ->
  let c' := merge_with c (nest p v) in
  is_obj c' /\ (forall r, at_path (p ++ r) c' = at_path r v) /\ (forall q, strictly_above q p -> exists x, at_path q c' = Some x /\ is_obj x) /\
  (forall q, ~ above q p -> ~ above p q -> at_path q c' = at_path q c).
Proof.
  induction p as [|k p IH]; intros v c Hne [m ->] [F1 F2]; [congruence|]. cbn zeta.
  change (merge_with (CObj m) (nest (k :: p) v)) with (merge_with (CObj m) (CObj [(k, nest p v)])). rewrite merge_obj.
  unfold merge_maps. cbn [fold_left fst snd].
  set (x := match hm_get m k with None => nest p v | Some old => merge_with old (nest p v) end).
  replace (match hm_get m k with None => hm_set m k (nest p v) | Some old => hm_set m k (merge_with old (nest p v)) end) with (hm_set m k x)
    by (unfold x; now destruct (hm_get m k)).
  assert (X : (forall r, at_path (p ++ r) x = at_path r v) /\ (forall q, strictly_above q p -> exists y, at_path q x = Some y /\ is_obj y) /\
    (forall q, ~ above q p -> ~ above p q -> at_path q x = match hm_get m k with Some old => at_path q old | None => None end)).
  { unfold x. cbn [at_path] in F1. destruct (hm_get m k) as [old|] eqn:E.
    - destruct p as [|k2 p]; [discriminate F1|]. destruct (IH v old) as (J1 & J2 & J3 & J4); [discriminate| | |now repeat split].
      + apply (F2 [k]); [now exists k2, p|]. cbn [at_path]. now rewrite E.
      + split; [exact F1|]. intros q y (j & r & Eq) Hy. apply (F2 (k :: q)); [exists j, r; now rewrite Eq|]. cbn [at_path]. now rewrite E.
    - split; [intros r; apply at_nest|]. split; [apply nest_above|]. intros q N1 N2. destruct (at_path q (nest p v)) eqn:Eq; [|reflexivity].
      exfalso. destruct (@nest_only p v q); [congruence|tauto|tauto]. }
  destruct X as (X1 & X2 & X3).
  assert (G : forall j, hm_get (hm_set m k x) j = if list_eq_dec N.eq_dec j k then Some x else hm_get m j) by (intros j; apply hm_get_set).
  split; [now eexists|]. split; [|split].
  - intros r. cbn [app at_path]. rewrite G. destruct (list_eq_dec N.eq_dec k k); [apply X1|congruence].
  - intros q (j & r & E). destruct q as [|j0 q]; [cbn; eexists; split; [reflexivity|now eexists]|]. cbn [app] in E. injection E as <- E. cbn [at_path]. rewrite G.
    destruct (list_eq_dec N.eq_dec k k); [|congruence]. apply X2. now exists j, r.
  - intros q N1 N2. destruct q as [|j q]; [elim N1; now eexists|]. cbn [at_path]. rewrite G. destruct (list_eq_dec N.eq_dec j k) as [->|Hj]; [|reflexivity].
    apply X3; intros (r & E); [apply N1|apply N2]; exists r; cbn; now rewrite <- E.
Qed.

(** The tree that a list of paths makes. *)
Record tree (es : list (list key * cv)) (c : cv) : Prop := {
  tr_obj : is_obj c;
  tr_leaf : forall p v, In (p, v) es -> forall r, at_path (p ++ r) c = at_path r v;
  tr_inner : forall p v q, In (p, v) es -> strictly_above q p -> exists x, at_path q c = Some x /\ is_obj x;
  tr_only : forall q, q <> [] -> at_path q c <> None -> exists p v, In (p, v) es /\ (above q p \/ above p q) }.
Definition apart (es : list (list key * cv)) : Prop := ForallOrdPairs (fun e e' => ~ above (fst e) (fst e') /\ ~ above (fst e') (fst e)) es.
Lemma above_case : forall q p, above q p -> q = p \/ strictly_above q p.
Proof. intros q p ([|k r] & ->); [left; now rewrite app_nil_r|right; now exists k, r]. Qed.
Lemma above_trans : forall p q r, above p q -> above q r -> above p r.
Proof. intros p q r (a & ->) (b & ->). exists (a ++ b). now rewrite app_assoc. Qed.
Lemma strict_above : forall p q, strictly_above p q -> above p q.
Proof. intros p q (k & r & ->). now eexists. Qed.
Lemma above_dec : forall a b : list key, above a b \/ ~ above a b.
Proof.
  induction a as [|k a IHa]; intros b; [left; now eexists|]. destruct b as [|j b]; [right; intros (r & E); discriminate|].
  destruct (list_eq_dec N.eq_dec k j) as [->|Hn]; [|right; intros (r & E); cbn in E; injection E; congruence]. destruct (IHa b) as [(r & ->)|Hn]; [left; now exists r|].
  right. intros (r & E). apply Hn. exists r. cbn in E. now injection E.
Qed.
(** Prefixes of one path are comparable. *)
Lemma above_two : forall (p q r : list key), above p r -> above q r -> above p q \/ above q p.
Proof.
  induction p as [|k p IH]; intros q r Hp Hq; [left; now eexists|]. destruct q as [|j q]; [right; now eexists|].
  destruct Hp as (a & ->), Hq as (b & E). cbn in E. injection E as -> E. destruct (IH q (p ++ a)) as [(c & ->)|(c & ->)]; [now eexists|now exists b|left|right]; now exists c.
Qed.
Lemma tree_free : forall es c p, tree es c -> p <> [] -> (forall e, In e es -> ~ above (fst e) p /\ ~ above p (fst e)) -> free p c.
Proof.
  intros es c p [T1 T2 T3 T4] Hne Ha. split.
  - destruct (at_path p c) eqn:E; [|reflexivity]. exfalso. destruct (T4 p Hne) as (p' & v' & Hin & H); [congruence|]. destruct (Ha _ Hin) as [A1 A2]. tauto.
  - intros q x Hq E. destruct q as [|j q]; [inv E; exact T1|]. destruct (T4 (j :: q)) as (p' & v' & Hin & H); [discriminate|congruence|].
    destruct (Ha _ Hin) as [A1 A2]. cbn [fst] in *. destruct H as [H|H].
    + destruct (above_case H) as [E'|H']; [exfalso; apply A1; subst p'; now apply strict_above|].
      destruct (T3 _ _ _ Hin H') as (y & Ey & Oy). congruence.
    + exfalso. apply A1. eapply above_trans; [exact H|]. now apply strict_above.
Qed.
Lemma tree_add : forall es c p v, tree es c -> p <> [] -> (forall e, In e es -> ~ above (fst e) p /\ ~ above p (fst e)) -> tree (es ++ [(p, v)]) (merge_with c (nest p v)).
Proof.
  intros es c p v T Hne Ha. pose proof (tree_free T Hne Ha) as F. destruct T as [T1 T2 T3 T4]. destruct (insert_path v Hne T1 F) as (I1 & I2 & I3 & I4).
  constructor.
  - exact I1.
  - intros p' v' Hin r. apply in_app_or in Hin. destruct Hin as [Hin|[E|[]]]; [|inv E; apply I2]. rewrite I4; [now apply T2| |].
    + intros Hp. destruct (Ha _ Hin) as [A1 A2]. apply A1. eapply above_trans; [|exact Hp]. now exists r.
    + intros Hp. destruct (Ha _ Hin) as [A1 A2]. destruct (@above_two p p' (p' ++ r)) as [H|H]; [exact Hp|now exists r| |]; tauto.
  - intros p' v' q Hin Hq. apply in_app_or in Hin. destruct Hin as [Hin|[E|[]]]; [|inv E; now apply I3].
    destruct (T3 _ _ _ Hin Hq) as (x & Ex & Ox). destruct (Ha _ Hin) as [A1 A2].
    destruct (above_dec q p) as [Hqp|Hqp].
    + destruct (above_case Hqp) as [->|Hs]; [|now apply I3]. exfalso. apply A2. now apply strict_above.
    + exists x. split; [|exact Ox]. rewrite I4; [exact Ex|exact Hqp|]. intros Hpq. apply A2. eapply above_trans; [exact Hpq|now apply strict_above].
  - intros q Hq H. assert (C : (above q p \/ above p q) \/ ~ above q p /\ ~ above p q) by (destruct (above_dec q p), (above_dec p q); tauto). destruct C as [C|[C1 C2]].
    + exists p, v. split; [apply in_or_app; right; now left|exact C].
    + rewrite I4 in H by assumption. destruct (T4 q Hq H) as (p' & v' & Hin & C). exists p', v'. split; [apply in_or_app; now left|exact C].
Qed.
Lemma tree_nil : tree [] (CObj []).
Proof. constructor; [now eexists|intros p v []|intros p v q []|]. intros [|k q] Hq H; [congruence|]. now elim H. Qed.
Lemma undot_tree : forall es es0 m, tree es0 (CObj m) -> apart (es0 ++ es) -> Forall (fun e => fst e <> []) es -> tree (es0 ++ es) (CObj (fold_left (@undot_entry D) es m)).
Proof.
  induction es as [|[p v] es IH]; intros es0 m T Ha Hne; [rewrite app_nil_r; exact T|]. cbn [fold_left]. inv Hne. cbn [fst] in *.
  change (es0 ++ (p, v) :: es) with (es0 ++ [(p, v)] ++ es) in *. rewrite app_assoc in *.
  assert (H : forall e, In e es0 -> ~ above (fst e) p /\ ~ above p (fst e)).
  { clear - Ha. rewrite <- app_assoc in Ha. unfold apart in Ha. induction es0 as [|e0 es0 IH0]; [contradiction|]. cbn [app] in Ha. inv Ha. intros e [<-|He]; [|now apply IH0].
    rewrite Forall_forall in H1. apply (H1 (p, v)). apply in_or_app. right. now left. }
  pose proof (tree_add v T H1 H) as T'. apply IH; [|exact Ha|assumption]. destruct p as [|k p]; [congruence|].
  enough (E : merge_with (CObj m) (nest (k :: p) v) = CObj (undot_entry m (k :: p, v))) by (rewrite <- E; exact T').
  change (nest (k :: p) v) with (CObj [(k, nest p v)]). rewrite merge_obj. unfold merge_maps, undot_entry, top_insert. cbn [fold_left fst snd]. reflexivity.
Qed.

(** ** What is found in such a tree *)
Lemma inner_obj : forall es c p v, tree es c -> In (p, v) es -> forall q, strictly_above q p -> exists m, at_path q c = Some (CObj m).
Proof. intros es c p v T Hin q Hq. destruct (tr_inner T _ Hin Hq) as (x & E & m & ->). now exists m. Qed.
Lemma reach_at : forall p r c v x, p <> [] -> (forall q, strictly_above q p -> exists m, at_path q c = Some (CObj m)) -> at_path p c = Some v ->
  (reaches (p ++ r) c x <-> exists y, newest v y /\ match r with [] => x = y | _ => reaches r y x end).
Proof.
  induction p as [|k p IH]; intros r c v x Hne Ho Hv; [congruence|]. destruct (Ho []) as (m & E); [now exists k, p|]. injection E as ->. cbn [at_path] in Hv.
  destruct (hm_get m k) as [c'|] eqn:Eg; [|discriminate]. cbn [app]. destruct p as [|k2 p].
  - cbn [at_path app] in *. injection Hv as ->. destruct r as [|j r]; split.
    + intros R. inversion R as [? ? c ? G N|]; subst; [|congruence]. assert (c = v) by congruence. subst c. exists x. now split.
    + intros (y & N & ->). eapply reach_last; eassumption.
    + intros R. inversion R as [|? ? ? c y ? ? G N R']; subst. assert (c = v) by congruence. subst c. exists y. now split.
    + intros (y & N & R). eapply reach_more; [discriminate|exact Eg|exact N|exact R].
  - destruct (Ho [k]) as (m' & E); [now exists k2, p|]. cbn [at_path] in E. rewrite Eg in E. injection E as ->.
    rewrite <- (IH r (CObj m') v x); [|discriminate| |exact Hv].
    + split.
      * intros R. inversion R as [|? ? ? c y ? ? G N R']; subst. assert (c = CObj m') by congruence. subst c.
        destruct N as [(q & E)|(<- & _)]; [discriminate|exact R'].
      * intros R. eapply reach_more; [discriminate|exact Eg|right; split; [reflexivity|discriminate]|exact R].
    + intros q (j & t & E). destruct (Ho (k :: q)) as (m2 & E2); [exists j, t; now rewrite E|]. cbn [at_path] in E2. rewrite Eg in E2. now exists m2.
Qed.
Lemma reach_inv : forall q c x, reaches q c x -> at_path q c <> None \/ exists q1 q2 a b, q = q1 ++ q2 /\ at_path q1 c = Some (CLink a b).
Proof.
  intros q c x R. induction R as [k m c x G N|k ks m c x y Hne G N R IH].
  - left. cbn. rewrite G. discriminate.
  - destruct N as [(p & ->)|(-> & N)].
    + right. exists [k], ks, p, x. split; [reflexivity|]. cbn. now rewrite G.
    + destruct IH as [IH|(q1 & q2 & a & b & -> & E)].
      * left. cbn. now rewrite G.
      * right. exists (k :: q1), q2, a, b. split; [reflexivity|]. cbn. now rewrite G.
Qed.
Theorem tree_reaches : forall es c, tree es c -> Forall (fun e => fst e <> []) es ->
  (forall p v r x, In (p, v) es -> (reaches (p ++ r) c x <-> exists y, newest v y /\ match r with [] => x = y | _ => reaches r y x end)) /\
  (forall q x, reaches q c x -> exists p v, In (p, v) es /\ (above q p \/ above p q)).
Proof.
  intros es c T Hne. split.
  - intros p v r x Hin. rewrite Forall_forall in Hne. apply reach_at; [exact (Hne _ Hin)|exact (inner_obj v T Hin)|].
    pose proof (tr_leaf T _ _ Hin []) as E. rewrite app_nil_r in E. exact E.
  - intros q x R. assert (Hq : q <> []) by (destruct R; discriminate). destruct (reach_inv R) as [H|(q1 & q2 & a & b & -> & E)]; [exact (tr_only T Hq H)|].
    assert (Hq1 : q1 <> []) by (intros ->; destruct (tr_obj T) as (m & ->); discriminate E).
    destruct (tr_only T Hq1) as (p & v & Hin & H); [congruence|]. exists p, v. split; [exact Hin|]. right. destruct H as [H|H].
    + destruct (above_case H) as [->|H']; [now eexists|]. destruct (inner_obj v T Hin H') as (m & Em). congruence.
    + eapply above_trans; [exact H|now eexists].
Qed.
End Dots.
