(** C68 (continued), C95, C96: references of hocon. *)
From Coq Require Import Relations Wellfounded.
From Verif Require Import PropsH.
From Verif Require Import Base Core Comb Closure Text Hocon HoconFacts HoconParse HoconLookup HoconResolve HoconRefs.
Set Implicit Arguments.
Local Open Scope string_scope.
Local Open Scope nat_scope.
Local Open Scope list_scope.

(** ** C68: when loading returns *)
(** [before] is the configuration whose references are about to be resolved: the text is read and the dotted keys are expanded. *)
Definition before D (dec : list N -> option D) env files (text : list N) (v : cv D) : Prop :=
  exists vs n fuel, hocon_p dec text 0 = Success vs n /\ resolve_stage0 (resolve dec env files fuel) vs = ROk v.
Lemma stage0_mono : forall D (dec : list N -> option D) env files n m vs v, n <= m -> resolve_stage0 (resolve dec env files n) vs = ROk v ->
  resolve_stage0 (resolve dec env files m) vs = ROk v.
Proof.
  intros D dec env files n m [|v0 t] v H E; [discriminate|]. unfold resolve_stage0 in *. apply rbind_ok in E. destruct E as (c & Ec & E).
  apply rbind_ok in E. destruct E as (ts & Et & E). rewrite (resolve_mono _ _ _ _ _ H Ec). cbn [rbind].
  erewrite rmap_mono; [exact E| |exact Et]. intros a b. now apply resolve_mono.
Qed.
Lemma load_stages : forall D (dec : list N -> option D) env files text v c, before dec env files text v ->
  ((exists fuel, parse_from_string dec env files fuel text = ROk (Some c)) <-> resolves dec env files v v c).
Proof.
  intros D dec env files text v c (vs & n & f0 & E0 & E1). unfold parse_from_string, parse_from_string_with. rewrite E0. split.
  - intros [fuel E]. apply rbind_ok in E. destruct E as (v' & E2 & E). apply rbind_ok in E. destruct E as (c' & E3 & E). injection E as <-.
    pose proof (@stage0_mono _ dec env files f0 (f0 + fuel) vs v ltac:(lia) E1) as F1. pose proof (@stage0_mono _ dec env files fuel (f0 + fuel) vs v' ltac:(lia) E2) as F2.
    assert (v' = v) by congruence. subst v'. now exists fuel.
  - intros [m E]. exists (f0 + m). rewrite (@stage0_mono _ dec env files f0 (f0 + m) vs v ltac:(lia) E1). cbn [rbind]. unfold resolve_stage1.
    rewrite (@resolve_mono _ dec env files m (f0 + m) v (Some v) c ltac:(lia) E). reflexivity.
Qed.
(** A configuration without includes (and without chains inside chains) loads if and only if every reference that is needed is found or falls
    back, and no reference needs itself, however indirectly: the relation [needs] is well-founded below the references that occur. *)
Theorem C68_returns_iff : forall D (dec : list N -> option D) env files text v, before dec env files text v -> conf v ->
  ((exists fuel c, parse_from_string dec env files fuel text = ROk (Some c)) <->
   forall r, ref_in r v -> Acc (needs env v) r /\ forall r', clos_refl_trans (rf D) (needs env v) r' r -> defined env v r').
Proof.
  intros D dec env files text v Hb Hc. pose proof (returns_iff dec env files Hc Hc) as R. split.
  - intros (fuel & c & E). assert (X : resolves dec env files v v c) by (apply (load_stages c Hb); now exists fuel). destruct X as [n X].
    intros r Hr. apply good_iff. apply R; [|exact Hr]. now exists n, c.
  - intros H. destruct R as [_ R]. destruct R as (n & c & E); [intros r Hr; apply good_iff; now apply H|].
    assert (X : resolves dec env files v v c) by now exists n. apply (load_stages c Hb) in X. destruct X as [fuel X]. now exists fuel, c.
Qed.
(** Hence a cycle of references of any length makes loading fail to return a configuration, with any stack. *)
Theorem C68_cycle_never_loads : forall D (dec : list N -> option D) env files text v r r', before dec env files text v -> conf v ->
  ref_in r v -> clos_refl_trans (rf D) (needs env v) r' r -> clos_trans (rf D) (needs env v) r' r' ->
  forall fuel c, parse_from_string dec env files fuel text <> ROk (Some c).
Proof.
  intros D dec env files text v r r' Hb Hc Hr Hp Hcy fuel c E. destruct (proj1 (C68_returns_iff Hb Hc) (ex_intro _ fuel (ex_intro _ c E)) r Hr) as [A _].
  assert (A' : Acc (needs env v) r').
  { clear - A Hp. apply clos_rt_rtn1 in Hp. induction Hp as [|y z Hy Hp IH]; [exact A|]. apply IH. now apply (Acc_inv A). }
  clear - A' Hcy. apply Acc_clos_trans in A'. induction A' as [x _ IH]. exact (IH x Hcy Hcy).
Qed.
Definition two_cycle : list N := bs "a = ${b}" ++ nl ++ bs "b = ${a}".
Definition three_refs : list N := bs "a = ${b}" ++ nl ++ bs "b = ${c.d}" ++ nl ++ bs "c { d = true }".
Definition cyc : cv (list N) := CObj [(bs "a", CRef None (bs "b") false); (bs "b", CRef None (bs "a") false)].
Definition thr : cv (list N) := CObj [(bs "a", CRef None (bs "b") false); (bs "b", CRef None (bs "c.d") false); (bs "c", CObj [(bs "d", CBool true)])].
Example C68_cycle_case : before xdec nothing nothing two_cycle cyc /\ conf cyc /\
  ref_in (bs "b", false, None) cyc /\ clos_trans _ (needs nothing cyc) (bs "b", false, None) (bs "b", false, None).
Proof.
  split; [|split; [|split]].
  - eexists _, _, 3. split; vm_compute; reflexivity.
  - repeat constructor.
  - eapply ri_obj; [now left|]. now apply ri_self.
  - apply t_trans with (y := (bs "a", false, None)); apply t_step.
    + eexists. split; [left; vm_compute; reflexivity|]. now apply ri_self.
    + eexists. split; [left; vm_compute; reflexivity|]. now apply ri_self.
Qed.
Example C68_returns_case : before xdec nothing nothing three_refs thr /\ conf thr /\
  exists c, load three_refs = ROk (Some c) /\ get_value c (bs "a") = ROk (Some (CBool true)).
Proof.
  split; [|split].
  - eexists _, _, 3. split; vm_compute; reflexivity.
  - repeat constructor.
  - eexists. split; vm_compute; reflexivity.
Qed.
Print Assumptions C68_returns_iff.
Print Assumptions C68_cycle_never_loads.

(** ** C77: exactly when no reference is left *)
Section Leftover.
Context {D : Type}.
Variable dec : list N -> option D.
Variables env files : list N -> option (list N).
Notation resolve := (resolve dec env files).
(** What falls back to a previous value that is itself resolved. *)
Inductive settled (src : cv D) : rf D -> Prop :=
| st_found : forall r c, target env src r c -> (forall r', ref_in r' c -> settled src r') -> settled src r
| st_back : forall r p, falls_back env src r -> snd r = Some p -> noref (prev_latest p) -> settled src r.
Lemma noref_fold_inv : forall (l : list (cv D)) v, noref (fold_left (@push D) l v) -> noref v /\ Forall (@noref D) l.
Proof.
  induction l as [|c l IH]; intros v H; [split; [exact H|constructor]|]. cbn [fold_left] in H. apply IH in H. destruct H as [H1 H2].
  inversion H1 as [| | | | | | |? ? Hp Hv]; subst. split; [exact Hp|]. constructor; [|exact H2]. destruct c; try exact Hv. inversion Hv.
Qed.
Lemma noref_exact : forall n src v x, conf src -> conf v -> resolve n v (Some src) = ROk x ->
  (noref x <-> forall r, ref_in r v -> settled src r).
Proof.
  induction n as [|n IH]; intros src v x Cs Cv E; [discriminate|]. cbn [Hocon.resolve] in E.
  assert (L : forall l ys, Forall (@conf D) l -> rmap (fun e => resolve n e (Some src)) l = ROk ys ->
    (Forall (@noref D) ys <-> forall w r, In w l -> ref_in r w -> settled src r)).
  { intros l ys Hl Er. apply rmap_inv in Er. induction Er as [|a b l ys Hab Er IHr]; [split; [contradiction|constructor]|]. inv Hl.
    specialize (IH src a b Cs H1 Hab). specialize (IHr H2). split.
    - intros K w r [<-|Hw] Hr; inv K; [now apply IH|]. eapply (proj1 IHr); eassumption.
    - intros K. constructor; [apply IH; intros r Hr; eapply K; [now left|exact Hr]|]. apply IHr. intros w r Hw Hr. eapply K; [right; exact Hw|exact Hr]. }
  destruct Cv as [| | | | |l Hl|m Hm|o path ms|p v Hp Hv Hn]; cbn [resolve_step] in E; try (injection E as <-; split; [intros _ r K; inv K|constructor]).
  - apply rbind_ok in E. destruct E as (ys & Er & E). injection E as <-. specialize (L l ys Hl Er). split.
    + intros K r Hr. inversion K as [| | | | |? K'| |]; subst. inversion Hr as [|? w Hi Hw| | |]; subst. eapply (proj1 L); eassumption.
    + intros K. constructor. apply L. intros w r Hw Hr. apply K. eapply ri_arr; eassumption.
  - apply rbind_ok in E. destruct E as (ys & Er & E). injection E as <-. apply rmap_inv in Er.
    assert (L' : Forall (fun kv => noref (snd kv)) ys <-> forall k w r, In (k, w) m -> ref_in r w -> settled src r).
    { induction Er as [|a b m ys Hab Er IHr]; [split; [contradiction|constructor]|]. inversion Hm as [|? ? Ha Hm']; subst. specialize (IHr Hm').
      apply rbind_ok in Hab. destruct Hab as (c & Ec & Eb). injection Eb as <-. specialize (IH src (snd a) c Cs Ha Ec). split.
      - intros K k w r [->|Hw] Hr; inv K; cbn [snd] in *; [now apply IH|]. eapply (proj1 IHr); eassumption.
      - intros K. constructor; [cbn [snd]; apply IH; intros r Hr; eapply (K (fst a)); [left; apply surjective_pairing|exact Hr]|].
        apply IHr. intros k w r Hw Hr. eapply K; [right; exact Hw|exact Hr]. }
    split.
    + intros K r Hr. inversion K as [| | | | | |? K'|]; subst. inversion Hr as [| |? k w Hi Hw| |]; subst. eapply (proj1 L'); eassumption.
    + intros K. constructor. apply L'. intros k w r Hw Hr. apply K. eapply ri_obj; eassumption.
  - apply rbind_ok in E. destruct E as (o' & Eg & E).
    assert (Q : (forall r, ref_in r (CRef o path ms) -> settled src r) <-> settled src (path, ms, o)).
    { split; [intros K; apply K; now apply ri_self|]. intros K r Hr. inversion Hr as [? ? ? ->| | | |]; subst. exact K. }
    rewrite Q. clear Q.
    assert (X : (exists c, target env src (path, ms, o) c /\ resolve n c (Some src) = ROk x) \/
      (falls_back env src (path, ms, o) /\ exists p, o = Some p /\ x = prev_latest p)).
    { destruct o' as [c|]; [left; exists c; split; [now left|exact E]|]. destruct (env path) as [s|] eqn:Ee.
      - left. exists (CStr s). split; [right; split; [exact Eg|now exists s]|exact E].
      - right. destruct ms; [|discriminate]. destruct o as [p|]; [|discriminate]. injection E as <-. split; [repeat split; try assumption; discriminate|]. now exists p. }
    destruct X as [(c & T & Ec)|(B & p & -> & ->)].
    + destruct (conf_target Cs T) as [Cc _]. specialize (IH src c x Cs Cc Ec). rewrite IH. split.
      * intros K. eapply st_found; [exact T|exact K].
      * intros K r Hr. inversion K as [? c' T' K'|? ? B]; subst; [rewrite (target_fun T' T) in K'; now apply K'|]. now apply target_not_back in T.
    + split; [intros K; eapply st_back; [exact B|reflexivity|exact K]|]. intros K. inversion K as [? c' T' K'|? ? _ Es Hn]; subst; [now apply target_not_back in T'|].
      cbn in Es. injection Es as <-. exact Hn.
  - pose proof (conf_vec (cf_link Hp Hv Hn)) as Cv.
    assert (Q : (forall r, ref_in r (CLink p v) -> settled src r) <-> forall w r, In w (to_vec (CLink p v)) -> ref_in r w -> settled src r).
    { split; [intros K w r Hw Hr; apply K; eapply vec_ref; eassumption|]. intros K r Hr. destruct (ref_vec Hr) as (w & Hw & Hrw). eapply K; eassumption. }
    rewrite Q. clear Q. destruct (to_vec (CLink p v)) as [|h t] eqn:Et.
    + unfold to_vec in Et. cbn in Et. destruct (rev (to_vec_rev p)); discriminate.
    + apply rbind_ok in E. destruct E as (h' & Eh & E). apply rbind_ok in E. destruct E as (t' & Er & E). injection E as <-. inversion Cv as [|? ? Ch Ct]; subst.
      specialize (IH src h h' Cs Ch Eh). specialize (L t t' Ct Er). split.
      * intros K. apply noref_fold_inv in K. destruct K as [K1 K2]. intros w r [<-|Hw] Hr; [now apply IH|]. eapply (proj1 L); eassumption.
      * intros K. apply noref_fold_push; [apply IH; intros r Hr; eapply K; [now left|exact Hr]|]. apply L. intros w r Hw Hr. eapply K; [right; exact Hw|exact Hr].
Qed.
Lemma settled_iff : forall src r, settled src r <-> good env src r /\
  forall r' p, clos_refl_trans (rf D) (needs env src) r' r -> falls_back env src r' -> snd r' = Some p -> noref (prev_latest p).
Proof.
  intros src r. split.
  - intros H. induction H as [r c T H IH|r p B Ep Hp].
    + split; [eapply g_found; [exact T|intros r' Hr'; now apply IH]|]. intros r' p K B Ep. apply clos_rt_rtn1 in K.
      inversion K as [|y z (c' & T' & Hy) K']; subst; [now apply target_not_back in T|]. rewrite (target_fun T' T) in Hy.
      eapply (proj2 (IH y Hy)); [apply clos_rtn1_rt; exact K'|exact B|exact Ep].
    + split; [now apply g_back|]. intros r' p' K B' Ep'. apply clos_rt_rtn1 in K. inversion K as [|y z (c' & T' & Hy) K']; subst; [congruence|].
      now apply target_not_back in T'.
  - intros [G H]. induction G as [r c T G IH|r B].
    + eapply st_found; [exact T|]. intros r' Hr'. apply IH; [exact Hr'|]. intros r2 p K. apply H. eapply rt_trans; [exact K|]. apply rt_step. now exists c.
    + pose proof B as (_ & _ & _ & B4). destruct (snd r) as [p|] eqn:Ep; [|congruence]. eapply st_back; [exact B|exact Ep|]. eapply H; [apply rt_refl|exact B|exact Ep].
Qed.
End Leftover.
(** What is loaded contains no reference if and only if each reference that is needed and falls back to its previous value finds one
    without references. *)
Theorem C77_exact : forall D (dec : list N -> option D) env files text v fuel c, before dec env files text v -> conf v ->
  parse_from_string dec env files fuel text = ROk (Some c) ->
  (noref c <-> forall r r' p, ref_in r v -> clos_refl_trans (rf D) (needs env v) r' r -> falls_back env v r' -> snd r' = Some p -> noref (prev_latest p)).
Proof.
  intros D dec env files text v fuel c Hb Hc E. assert (X : resolves dec env files v v c) by (apply (load_stages c Hb); now exists fuel). destruct X as [n X].
  rewrite (noref_exact dec env files n Hc Hc X). split.
  - intros H r r' p Hr. apply (proj1 (settled_iff env v r)). now apply H.
  - intros H r Hr. apply settled_iff. split; [eapply returns_good; eassumption|]. intros r' p. now apply H.
Qed.
(** A case on each side: b is true; a is false, then ${b}, then an optional reference to nothing. *)
Definition left_text : list N := bs "b = true" ++ nl ++ bs "o { a = ${b}, a = ${?zz} }".
Definition left_conf : cv (list N) := CObj [(bs "b", CBool true); (bs "o", CObj [(bs "a", CLink (CRef None (bs "b") false) (CRef (Some (CRef None (bs "b") false)) (bs "zz") true))])].
Definition right_text : list N := bs "b = true" ++ nl ++ bs "o { a = false, a = ${?zz} }".
Definition right_conf : cv (list N) := CObj [(bs "b", CBool true); (bs "o", CObj [(bs "a", CLink (CBool false) (CRef (Some (CBool false)) (bs "zz") true))])].
Example C77_exact_case : before xdec nothing nothing left_text left_conf /\ conf left_conf /\ before xdec nothing nothing right_text right_conf /\ conf right_conf /\
  falls_back nothing left_conf (bs "zz", true, Some (CRef None (bs "b") false)) /\
  (exists c, load left_text = ROk (Some c) /\ ~ noref c) /\ (exists c, load right_text = ROk (Some c) /\ noref c).
Proof.
  split; [|split; [|split; [|split; [|split; [|split]]]]].
  - eexists _, _, 3. split; vm_compute; reflexivity.
  - repeat constructor; discriminate.
  - eexists _, _, 3. split; vm_compute; reflexivity.
  - repeat constructor; discriminate.
  - repeat split; try (vm_compute; reflexivity). discriminate.
  - eexists. split; [vm_compute; reflexivity|]. intros H. inversion H as [| | | | | |? H1|]; subst. inversion H1 as [|? ? _ H2]; subst. inversion H2 as [|? ? H3 _]; subst.
    inversion H3 as [| | | | | |? H4|]; subst. inversion H4 as [|? ? H5 _]; subst. inversion H5 as [| | | | | | |? ? _ H6]; subst. inversion H6.
  - eexists. split; [vm_compute; reflexivity|]. repeat constructor.
Qed.
Print Assumptions C77_exact.

(** ** C95: a reference has the value of the path it names *)
Lemma no_previous : forall D (r : rf D) v, ref_in r v -> simple_refs v -> snd r = None.
Proof.
  intros D r v H. induction H as [o path ms ->|l v Hi H IH|m k v Hi H IH|p v H IH|p v H IH]; intros S; inversion S; subst; try reflexivity; try (now apply IH).
  - apply IH. now apply (proj1 (Forall_forall _ _) H1).
  - apply IH. now apply (proj1 (Forall_forall _ _) H1) in Hi.
Qed.
Lemma loaded_found : forall D (dec : list N -> option D) env files text v fuel c, before dec env files text v -> conf v ->
  (forall r, ref_in r v -> ~ falls_back env v r) -> parse_from_string dec env files fuel text = ROk (Some c) -> all_found env v v.
Proof.
  intros D dec env files text v fuel c Hb Hc Hn E r Hr. destruct (proj1 (C68_returns_iff Hb Hc) (ex_intro _ fuel (ex_intro _ c E)) r Hr) as [_ Df].
  destruct (Df r (rt_refl _ _ _)) as [H|H]; [exact H|]. now apply Hn in H.
Qed.
(** In a loaded configuration the value at [a] is the value at [b] if the text has a reference to [b] at [a]. *)
Theorem C95_same_value_partial : forall D (dec : list N -> option D) env files text v fuel c a b w o ms,
  before dec env files text v -> conf v -> (forall r, ref_in r v -> ~ falls_back env v r) -> parse_from_string dec env files fuel text = ROk (Some c) ->
  get_value v a = ROk (Some (CRef o b ms)) -> get_value v b = ROk (Some w) ->
  exists x, get_value c a = ROk (Some x) /\ get_value c b = ROk (Some x) /\ noref x.
Proof.
  intros D dec env files text v fuel c a b w o ms Hb Hc Hn E Ga Gb. pose proof (loaded_found _ Hb Hc Hn E) as Hf.
  assert (X : resolves dec env files v v c) by (apply (load_stages c Hb); now exists fuel).
  destruct (@get_resolved _ dec env files _ v v c a _ Hc Hc Hf Hf X Ga) as (xa & Ea & Ra).
  destruct (@get_resolved _ dec env files _ v v c b _ Hc Hc Hf Hf X Gb) as (xb & Eb & Rb).
  assert (Ra' : resolves dec env files v w xa) by (eapply ref_resolves; [|exact Ra]; now left).
  pose proof (resolves_fun Ra' Rb) as <-. exists xa. split; [exact Ea|]. split; [exact Eb|].
  destruct Rb as [n En]. apply (fun H1 H2 => proj1 (@resolved_noref _ dec env files n v w xa Hc H1 Hf H2 En)).
  - exact (proj1 (conf_get _ _ Hc Gb)).
  - exact (found_get _ _ Hf Gb).
Qed.
(** If the path leads nowhere the value is that of the environment variable of this name. *)
Theorem C95_environment_partial : forall D (dec : list N -> option D) env files text v fuel c a b s o ms,
  before dec env files text v -> conf v -> (forall r, ref_in r v -> ~ falls_back env v r) -> parse_from_string dec env files fuel text = ROk (Some c) ->
  get_value v a = ROk (Some (CRef o b ms)) -> get_value v b = ROk None -> env b = Some s ->
  get_value c a = ROk (Some (CStr s)).
Proof.
  intros D dec env files text v fuel c a b s o ms Hb Hc Hn E Ga Gb Es. pose proof (loaded_found _ Hb Hc Hn E) as Hf.
  assert (X : resolves dec env files v v c) by (apply (load_stages c Hb); now exists fuel).
  destruct (@get_resolved _ dec env files _ v v c a _ Hc Hc Hf Hf X Ga) as (xa & Ea & Ra).
  assert (Ra' : resolves dec env files v (CStr s) xa).
  { eapply ref_resolves; [|exact Ra]. right. split; [exact Gb|]. now exists s. }
  destruct Ra' as [[|n] En]; [discriminate|]. injection En as <-. exact Ea.
Qed.
(** Everything else keeps its value. *)
Theorem C95_values_kept_partial : forall D (dec : list N -> option D) env files text v fuel c a w,
  before dec env files text v -> conf v -> (forall r, ref_in r v -> ~ falls_back env v r) -> parse_from_string dec env files fuel text = ROk (Some c) ->
  get_value v a = ROk (Some w) -> noref w -> get_value c a = ROk (Some w).
Proof.
  intros D dec env files text v fuel c a w Hb Hc Hn E Ga Nw. pose proof (loaded_found _ Hb Hc Hn E) as Hf.
  assert (X : resolves dec env files v v c) by (apply (load_stages c Hb); now exists fuel).
  destruct (@get_resolved _ dec env files _ v v c a _ Hc Hc Hf Hf X Ga) as (xa & Ea & Ra).
  destruct (noref_settles dec env files Nw) as [S _]. destruct (S v) as [n En].
  assert (R : resolves dec env files v w w) by (exists n; now apply En). now rewrite (resolves_fun R Ra).
Qed.
(** A reference cannot be looked through: if [a] is a reference to an object, a reference to a key of [a] panics. *)
Theorem C95_through_reference_refuted :
  (exists c, load (bs "y { z = true }" ++ nl ++ bs "a = ${y}" ++ nl ++ bs "w = ${y.z}") = ROk (Some c) /\
     get_value c (bs "w") = ROk (Some (CBool true)) /\ get_value c (bs "a.z") = ROk (Some (CBool true))) /\
  load (bs "y { z = true }" ++ nl ++ bs "a = ${y}" ++ nl ++ bs "w = ${a.z}") = RPanic.
Proof. split; [eexists; split; [|split]|]; vm_compute; reflexivity. Qed.
Example C95_case : (forall r, ref_in r thr -> ~ falls_back nothing thr r) /\ get_value thr (bs "b") = ROk (Some (CRef None (bs "c.d") false)) /\
  get_value thr (bs "c.d") = ROk (Some (CBool true)).
Proof.
  split; [|split; vm_compute; reflexivity]. intros r H (_ & _ & _ & Ho). apply Ho. apply (no_previous H). repeat constructor.
Qed.
Print Assumptions C95_same_value_partial.
Print Assumptions C95_environment_partial.
Print Assumptions C95_values_kept_partial.
Print Assumptions C95_through_reference_refuted.
