(** References in the hocon model: when resolution returns, and what it puts in place of a reference. *)
From Coq Require Import Relations.
From Verif Require Import Base Core Comb Closure RepFacts LitFacts Hoare Runs Weak Agree Text Json JsonSpec JsonFacts Hocon HoconFacts HoconParse HoconLookup HoconResolve.
Set Implicit Arguments.
Local Open Scope string_scope.
Local Open Scope nat_scope.
Local Open Scope list_scope.

Section Refs.
Variable D : Type.
Variable dec : list N -> option D.
Variable env files : list N -> option (list N).
Notation cv := (cv D).
Notation key := (list N).
Notation entries := (list (key * cv)).
Notation resolve := (resolve dec env files).

(** *** The depth of the call stack does not matter *)
Lemma rbind_ok : forall A B (x : rs A) (f : A -> rs B) b, rbind x f = ROk b <-> exists a, x = ROk a /\ f a = ROk b.
Proof. intros A B x f b. split; [destruct x; cbn; try discriminate; eauto|]. intros (a & -> & E). exact E. Qed.
Lemma rmap_mono : forall A B (f g : A -> rs B) l ys, (forall x y, f x = ROk y -> g x = ROk y) -> rmap f l = ROk ys -> rmap g l = ROk ys.
Proof.
  intros A B f g l. induction l as [|x l IH]; intros ys H E; [exact E|]. cbn [rmap] in *. apply rbind_ok in E. destruct E as (y & Ey & E).
  apply rbind_ok in E. destruct E as (t & Et & E). rewrite (H _ _ Ey), (IH _ H Et). exact E.
Qed.
Lemma step_mono : forall (f g : cv -> option cv -> rs cv), (forall v s x, f v s = ROk x -> g v s = ROk x) ->
  forall v s x, resolve_step dec env files f v s = ROk x -> resolve_step dec env files g v s = ROk x.
Proof.
  intros f g H v s x E.
  destruct v as [|b|st|d|d u|l|m|o l|o path ms|me fi|p v]; destruct s as [src|]; cbn [resolve_step] in *; try exact E.
  - apply rbind_ok in E. destruct E as (ys & Er & E). rewrite (@rmap_mono _ _ _ (fun e => g e (Some src)) l ys (fun a b Hab => H _ _ _ Hab) Er). exact E.
  - apply rbind_ok in E. destruct E as (ys & Er & E).
    erewrite rmap_mono; [exact E| |exact Er]. intros [k a] y. cbn. intros Ea. apply rbind_ok in Ea. destruct Ea as (c & Ec & Ea). now rewrite (H _ _ _ Ec).
  - apply rbind_ok in E. destruct E as (ys & Er & E).
    erewrite rmap_mono; [exact E| |exact Er]. intros [k a] y. cbn. intros Ea. apply rbind_ok in Ea. destruct Ea as (c & Ec & Ea). now rewrite (H _ _ _ Ec).
  - apply rbind_ok in E. destruct E as (ys & Er & E). rewrite (@rmap_mono _ _ _ (fun e => g e (Some src)) l ys (fun a b Hab => H _ _ _ Hab) Er). exact E.
  - apply rbind_ok in E. destruct E as (o' & Eg & E). rewrite Eg. cbn [rbind]. destruct o' as [c|]; [now apply H|]. destruct (env path); [now apply H|exact E].
  - unfold load_from_file_with, parse_from_string_with in *. destruct (hocon_p dec _ 0) as [vs k|e cm| |]; try exact E.
    apply rbind_ok in E. destruct E as (c & E & Ec). apply rbind_ok in E. destruct E as (v1 & E1 & E). apply rbind_ok in E. destruct E as (v2 & E2 & E).
    unfold resolve_stage0, resolve_stage1 in *. destruct vs as [|v0 t]; [discriminate|]. apply rbind_ok in E1. destruct E1 as (cur & Ecur & E1).
    apply rbind_ok in E1. destruct E1 as (ts & Ets & E1). rewrite (H _ _ _ Ecur). cbn [rbind].
    rewrite (@rmap_mono _ _ _ (fun c => g c None) t ts (fun a b Hab => H _ _ _ Hab) Ets). cbn [rbind]. inv E1. cbn [rbind]. rewrite (H _ _ _ E2). cbn [rbind]. inv E. exact Ec.
  - unfold load_from_file_with, parse_from_string_with in *. destruct (hocon_p dec _ 0) as [vs k|e cm| |]; try exact E.
    apply rbind_ok in E. destruct E as (c & E & Ec). apply rbind_ok in E. destruct E as (v1 & E1 & E). apply rbind_ok in E. destruct E as (v2 & E2 & E).
    unfold resolve_stage0, resolve_stage1 in *. destruct vs as [|v0 t]; [discriminate|]. apply rbind_ok in E1. destruct E1 as (cur & Ecur & E1).
    apply rbind_ok in E1. destruct E1 as (ts & Ets & E1). rewrite (H _ _ _ Ecur). cbn [rbind].
    rewrite (@rmap_mono _ _ _ (fun c => g c None) t ts (fun a b Hab => H _ _ _ Hab) Ets). cbn [rbind]. inv E1. cbn [rbind]. rewrite (H _ _ _ E2). cbn [rbind]. inv E. exact Ec.
  - destruct (to_vec (CLink p v)) as [|h t]; [exact E|]. apply rbind_ok in E. destruct E as (h' & Eh & E). apply rbind_ok in E. destruct E as (t' & Et & E).
    rewrite (H _ _ _ Eh). cbn [rbind]. rewrite (@rmap_mono _ _ _ (fun e => g e (Some src)) t t' (fun a b Hab => H _ _ _ Hab) Et). exact E.
Qed.
Lemma resolve_mono : forall n m v s x, n <= m -> resolve n v s = ROk x -> resolve m v s = ROk x.
Proof.
  induction n as [|n IH]; intros m v s x Hm E; [discriminate|]. destruct m as [|m]; [lia|]. cbn [Hocon.resolve] in *.
  eapply step_mono; [|exact E]. intros v' s' x' E'. eapply IH; [|exact E']. lia.
Qed.
Lemma resolve_det : forall n m v s x y, resolve n v s = ROk x -> resolve m v s = ROk y -> x = y.
Proof.
  intros n m v s x y E1 E2. pose proof (@resolve_mono n (n + m) _ _ _ ltac:(lia) E1) as F1. pose proof (@resolve_mono m (n + m) _ _ _ ltac:(lia) E2) as F2. congruence.
Qed.

(** *** Values without includes and enumerations; in a chain the values behind the first are no chains *)
Definition no_link (v : cv) : Prop := forall p x, v <> CLink p x.
Inductive conf : cv -> Prop :=
| cf_null : conf CNull
| cf_bool : forall b, conf (CBool b)
| cf_str : forall s, conf (CStr s)
| cf_num : forall d, conf (CNum d)
| cf_dur : forall d u, conf (CDur d u)
| cf_arr : forall l, Forall conf l -> conf (CArr l)
| cf_obj : forall m, Forall (fun kv => conf (snd kv)) m -> conf (CObj m)
| cf_ref : forall o path missing, conf (CRef o path missing)
| cf_link : forall p v, conf p -> conf v -> no_link v -> conf (CLink p v).
(** A reference: path, optional or not, previous value. *)
Definition rf : Type := (list N * bool * option cv)%type.
(** [r] occurs in [v] as a reference to be resolved. *)
Inductive ref_in (r : rf) : cv -> Prop :=
| ri_self : forall o path missing, r = (path, missing, o) -> ref_in r (CRef o path missing)
| ri_arr : forall l v, In v l -> ref_in r v -> ref_in r (CArr l)
| ri_obj : forall m k v, In (k, v) m -> ref_in r v -> ref_in r (CObj m)
| ri_prev : forall p v, ref_in r p -> ref_in r (CLink p v)
| ri_value : forall p v, ref_in r v -> ref_in r (CLink p v).
(** What a reference stands for: the value at its path, or else the environment variable of that name. *)
Definition target (src : cv) (r : rf) (c : cv) : Prop :=
  get_value src (fst (fst r)) = ROk (Some c) \/ (get_value src (fst (fst r)) = ROk None /\ exists s, env (fst (fst r)) = Some s /\ c = CStr s).
(** An optional reference that is found nowhere and has a previous value. *)
Definition falls_back (src : cv) (r : rf) : Prop :=
  get_value src (fst (fst r)) = ROk None /\ env (fst (fst r)) = None /\ snd (fst r) = true /\ snd r <> None.
(** To resolve [r], [r'] must be resolved. *)
Definition needs (src : cv) (r' r : rf) : Prop := exists c, target src r c /\ ref_in r' c.
Lemma target_fun : forall src r c c', target src r c -> target src r c' -> c = c'.
Proof. intros src r c c' [H|(H & s & Hs & ->)] [K|(K & s' & Ks & ->)]; congruence. Qed.
Lemma target_not_back : forall src r c, target src r c -> ~ falls_back src r.
Proof. intros src r c [H|(H & s & Hs & ->)] (K1 & K2 & _); congruence. Qed.

(** *** When resolution returns *)
Inductive good (src : cv) : rf -> Prop :=
| g_found : forall r c, target src r c -> (forall r', ref_in r' c -> good src r') -> good src r
| g_back : forall r, falls_back src r -> good src r.
Definition returns (src v : cv) : Prop := exists n x, resolve n v (Some src) = ROk x.

Lemma ref_vec : forall r v, ref_in r v -> exists w, In w (to_vec v) /\ ref_in r w.
Proof.
  intros r v. assert (NL : forall v, no_link v -> to_vec v = [v]) by (intros w H; destruct w; try reflexivity; now destruct (H w1 w2)).
  induction v as [|b|s|d|d u|l Hl|m Hm|o l Ho Hl|o path ms Ho|me f|p v Hp Hv] using cv_ind2; intros H;
    try (rewrite NL by discriminate; eexists; split; [now left|exact H]).
  change (to_vec (CLink p v)) with (to_vec p ++ [v]). inversion H as [| | |? ? Hi|? ? Hi]; subst.
  - destruct (Hp Hi) as (w & Hw & Hr). exists w. split; [apply in_or_app; now left|exact Hr].
  - exists v. split; [apply in_or_app; right; now left|exact Hi].
Qed.
Lemma vec_ref : forall r v w, In w (to_vec v) -> ref_in r w -> ref_in r v.
Proof.
  intros r v w. induction v as [|b|s|d|d u|l Hl|m Hm|o l Ho Hl|o path ms Ho|me f|p v Hp Hv] using cv_ind2; intros H K;
    try (destruct H as [<-|[]]; exact K).
  change (to_vec (CLink p v)) with (to_vec p ++ [v]) in H. apply in_app_iff in H. destruct H as [H|[<-|[]]]; [apply ri_prev; auto|now apply ri_value].
Qed.
Lemma conf_vec : forall v, conf v -> Forall conf (to_vec v).
Proof.
  intros v H. induction H as [| | | | | | | |p v Hp IHp Hv IHv Hn]; try (constructor; [now constructor|constructor]).
  change (to_vec (CLink p v)) with (to_vec p ++ [v]). apply Forall_app. split; [exact IHp|]. constructor; [exact Hv|constructor].
Qed.
Lemma conf_get : forall n v path x, conf v -> get_value_fuel n v path = ROk (Some x) -> conf x /\ no_link x.
Proof.
  induction n as [|n IH]; intros v path x Hv E; [discriminate|]. cbn [get_value_fuel] in E.
  destruct (check_path path); cbn [rbind] in E; try discriminate. destruct (split_dot path) as [k r]. destruct v; try discriminate.
  destruct (hm_get m k) as [c|] eqn:Eg; [|discriminate]. inv Hv. apply get_in in Eg. apply (proj1 (Forall_forall _ _) H0) in Eg. cbn in Eg.
  assert (L : conf (latest c) /\ no_link (latest c)).
  { inversion Eg; subst; cbn [latest]; try (split; [exact Eg|discriminate]). now split. }
  destruct r as [next|]; [apply IH in E; [exact E|apply L]|]. injection E as <-. exact L.
Qed.
Lemma conf_target : forall src r c, conf src -> target src r c -> conf c /\ no_link c.
Proof. intros src r c H [K|(_ & s & _ & ->)]; [eapply conf_get; eassumption|]. split; [constructor|discriminate]. Qed.

Lemma returns_good : forall n src v x, conf src -> conf v -> resolve n v (Some src) = ROk x -> forall r, ref_in r v -> good src r.
Proof.
  induction n as [|n IH]; intros src v x Hs Hv E r Hr; [discriminate|]. cbn [Hocon.resolve] in E.
  assert (L : forall l ys, Forall conf l -> rmap (fun e => resolve n e (Some src)) l = ROk ys -> forall w, In w l -> ref_in r w -> good src r).
  { intros l ys Hl Er w Hw Hi. apply rmap_inv in Er. induction Er as [|a b l ys Hab Er IHr]; [contradiction|]. inv Hl. destruct Hw as [<-|Hw]; [|now apply IHr].
    eapply IH; [exact Hs| |exact Hab|exact Hi]. assumption. }
  inversion Hr as [o path ms Eq|l w Hi Hw|m k w Hi Hw|p w Hw|p w Hw]; subst; cbn [resolve_step] in E.
  - apply rbind_ok in E. destruct E as (o' & Eg & E). destruct o' as [c|].
    + assert (T : target src (path, ms, o) c) by now left. eapply g_found; [exact T|]. destruct (conf_target Hs T) as [Cc _]. intros r' Hr'. eapply IH; eassumption.
    + destruct (env path) as [s|] eqn:Ee.
      * apply g_found with (c := CStr s); [right; split; [exact Eg|now exists s]|]. intros r' K. inv K.
      * apply g_back. destruct ms; [|discriminate]. destruct o as [p|]; [|discriminate]. repeat split; try assumption. cbn. discriminate.
  - inv Hv. apply rbind_ok in E. destruct E as (ys & Er & E). eapply L; eassumption.
  - inv Hv. apply rbind_ok in E. destruct E as (ys & Er & E). clear E. apply rmap_inv in Er.
    induction Er as [|a b m ys Hab Er IHr]; [contradiction|]. inv H0. destruct Hi as [->|Hi]; [|now apply IHr; [econstructor; eassumption|assumption|]].
    cbn in *. apply rbind_ok in Hab. destruct Hab as (c & Ec & _). eapply IH; eassumption.
  - destruct (ref_vec Hr) as (x0 & Hx & Hrx). pose proof (conf_vec Hv) as Cv. destruct (to_vec (CLink p w)) as [|h t]; [contradiction|].
    apply rbind_ok in E. destruct E as (h' & Eh & E). apply rbind_ok in E. destruct E as (t' & Et & E). inv Cv.
    destruct Hx as [<-|Hx]; [eapply IH; eassumption|eapply L; eassumption].
  - destruct (ref_vec Hr) as (x0 & Hx & Hrx). pose proof (conf_vec Hv) as Cv. destruct (to_vec (CLink p w)) as [|h t]; [contradiction|].
    apply rbind_ok in E. destruct E as (h' & Eh & E). apply rbind_ok in E. destruct E as (t' & Et & E). inv Cv.
    destruct Hx as [<-|Hx]; [eapply IH; eassumption|eapply L; eassumption].
Qed.
Lemma returns_all : forall src l, Forall (returns src) l -> exists n ys, rmap (fun e => resolve n e (Some src)) l = ROk ys.
Proof.
  intros src l H. induction H as [|v l (n & x & E) H (n' & ys & IH)]; [now exists 0, []|]. exists (n + n'), (x :: ys). cbn [rmap].
  rewrite (@resolve_mono n (n + n') _ _ _ ltac:(lia) E). cbn [rbind].
  erewrite rmap_mono; [reflexivity| |exact IH]. intros a b. apply resolve_mono. lia.
Qed.
Lemma refs_return : forall src v, conf v -> (forall o path ms, ref_in (path, ms, o) v -> returns src (CRef o path ms)) -> returns src v /\ Forall (returns src) (to_vec v).
Proof.
  intros src v. assert (NL : forall v, no_link v -> to_vec v = [v]) by (intros w H; destruct w; try reflexivity; now destruct (H w1 w2)).
  assert (One : forall v, no_link v -> returns src v -> returns src v /\ Forall (returns src) (to_vec v)).
  { intros w Hw H. split; [exact H|]. rewrite NL by exact Hw. now constructor. }
  induction v as [|b|s|d|d u|l Hl|m Hm|o l Ho Hl|o path ms Ho|me f|p v Hp Hv] using cv_ind2; intros C H; inv C;
    try (apply One; [discriminate|]; now exists 1; eexists).
  - apply One; [discriminate|]. assert (A : Forall (returns src) l).
    { apply Forall_forall. intros w Hw. rewrite Forall_forall in Hl, H1. apply (Hl w Hw (H1 w Hw)). intros o path ms Hr. apply H. eapply ri_arr; eassumption. }
    destruct (returns_all A) as (n & ys & E). exists (S n), (CArr ys). cbn [Hocon.resolve resolve_step]. now rewrite E.
  - apply One; [discriminate|]. assert (A : Forall (returns src) (map snd m)).
    { apply Forall_forall. intros w Hw. apply in_map_iff in Hw. destruct Hw as ([k w'] & <- & Hw). rewrite Forall_forall in Hm, H1. cbn.
      apply (Hm (k, w') Hw (H1 (k, w') Hw)). intros o path ms Hr. apply H. eapply ri_obj; eassumption. }
    destruct (returns_all A) as (n & ys & E). clear - E.
    assert (exists ms, rmap (fun kv => rbind (resolve n (snd kv) (Some src)) (fun c => ROk (fst kv, c))) m = ROk ms) as (ms & Em).
    { revert ys E. induction m as [|[k w] m IH]; intros ys E; [now exists []|]. cbn [map rmap fst snd] in *. apply rbind_ok in E. destruct E as (y & Ey & E).
      apply rbind_ok in E. destruct E as (t & Et & E). destruct (IH _ Et) as (ms & Em). rewrite Ey. cbn [rbind]. rewrite Em. cbn. eauto. }
    exists (S n), (CObj ms). cbn [Hocon.resolve resolve_step]. now rewrite Em.
  - apply One; [discriminate|]. apply H. now apply ri_self.
  - destruct (Hp H2) as [_ P]; [intros; apply H; now apply ri_prev|]. destruct (Hv H3) as [V _]; [intros; apply H; now apply ri_value|].
    assert (A : Forall (returns src) (to_vec (CLink p v))).
    { change (to_vec (CLink p v)) with (to_vec p ++ [v]). apply Forall_app. split; [exact P|now constructor]. }
    split; [|exact A]. destruct (returns_all A) as (n & ys & E).
    destruct (to_vec (CLink p v)) as [|h t] eqn:Et; [exists 1; eexists; cbn [Hocon.resolve resolve_step]; now rewrite Et|]. cbn [rmap] in E.
    apply rbind_ok in E. destruct E as (y & Ey & E). apply rbind_ok in E. destruct E as (t' & Et' & E).
    exists (S n). eexists. cbn [Hocon.resolve resolve_step]. rewrite Et, Ey. cbn [rbind]. rewrite Et'. reflexivity.
Qed.
Lemma good_returns : forall src r, conf src -> good src r -> returns src (CRef (snd r) (fst (fst r)) (snd (fst r))).
Proof.
  intros src r Hs H. induction H as [r c T H IH|r (B1 & B2 & B3 & B4)].
  - destruct (conf_target Hs T) as [Cc _]. destruct (@refs_return src c Cc) as [(n & x & E) _].
    + intros o path ms Hr. apply (IH _ Hr).
    + exists (S n), x. cbn [Hocon.resolve resolve_step]. destruct T as [T|(T & s & Es & ->)]; rewrite T; cbn [rbind]; [exact E|]. now rewrite Es.
  - destruct r as [[path ms] o]. cbn [fst snd] in *. subst ms. exists 1. destruct o as [p|]; [|congruence]. eexists. cbn [Hocon.resolve resolve_step]. rewrite B1. cbn [rbind]. rewrite B2. reflexivity.
Qed.
Definition defined (src : cv) (r : rf) : Prop := (exists c, target src r c) \/ falls_back src r.
Lemma good_iff : forall src r, good src r <-> Acc (needs src) r /\ (forall r', clos_refl_trans rf (needs src) r' r -> defined src r').
Proof.
  intros src r. split.
  - intros H. induction H as [r c T H IH|r B].
    + split.
      * constructor. intros r' (c' & T' & Hr'). rewrite (target_fun T' T) in Hr'. now apply IH.
      * intros r' K. apply clos_rt_rtn1 in K. inversion K as [|y z (c' & T' & Hy) K']; subst; [left; now exists c|].
        rewrite (target_fun T' T) in Hy. apply (proj2 (IH y Hy)). now apply clos_rtn1_rt.
    + split.
      * constructor. intros r' (c' & T' & _). now apply target_not_back in T'.
      * intros r' K. apply clos_rt_rtn1 in K. inversion K as [|y z (c' & T' & Hy) K']; subst; [now right|]. now apply target_not_back in T'.
  - intros [A Df]. induction A as [r A IH]. destruct (Df r (rt_refl _ _ _)) as [(c & T)|B]; [|now apply g_back].
    apply g_found with (c := c); [exact T|]. intros r' Hr'. assert (Nr : needs src r' r) by now exists c. apply IH; [exact Nr|].
    intros r2 K. apply Df. eapply rt_trans; [exact K|now apply rt_step].
Qed.
Lemma returns_iff : forall src v, conf src -> conf v -> returns src v <-> forall r, ref_in r v -> good src r.
Proof.
  intros src v Hs Hv. split.
  - intros (n & x & E). exact (@returns_good n src v x Hs Hv E).
  - intros H. apply (@refs_return src v Hv). intros o path ms Hr. exact (good_returns Hs (H _ Hr)).
Qed.

(** *** What is put in place of a reference *)
Definition resolves (src v x : cv) : Prop := exists n, resolve n v (Some src) = ROk x.
Definition all_found (src v : cv) : Prop := forall r, ref_in r v -> exists c, target src r c.
Lemma found_get : forall src n v path x, all_found src v -> get_value_fuel n v path = ROk (Some x) -> all_found src x.
Proof.
  intros src. induction n as [|n IH]; intros v path x Hv E; [discriminate|]. cbn [get_value_fuel] in E.
  destruct (check_path path); cbn [rbind] in E; try discriminate. destruct (split_dot path) as [k r]. destruct v; try discriminate.
  destruct (hm_get m k) as [c|] eqn:Eg; [|discriminate]. apply get_in in Eg.
  assert (L : all_found src (latest c)).
  { intros q Hq. apply Hv. eapply ri_obj; [exact Eg|]. destruct c; try exact Hq. now apply ri_value. }
  destruct r as [next|]; [now apply IH in E|]. now inv E.
Qed.
Lemma found_target : forall src r c, all_found src src -> target src r c -> all_found src c.
Proof. intros src r c H [K|(_ & s & _ & ->)]; [eapply found_get; eassumption|]. intros q Hq. inv Hq. Qed.
Lemma resolved_noref : forall n src v x, conf src -> conf v -> all_found src src -> all_found src v -> resolve n v (Some src) = ROk x ->
  noref x /\ (no_link v -> no_link x).
Proof.
  induction n as [|n IH]; intros src v x Cs Cv Fs Fv E; [discriminate|]. cbn [Hocon.resolve] in E.
  assert (L : forall l ys, Forall conf l -> (forall w, In w l -> all_found src w) -> rmap (fun e => resolve n e (Some src)) l = ROk ys -> Forall (@noref D) ys).
  { intros l ys Hl Fl Er. apply rmap_inv in Er. induction Er as [|a b l ys Hab Er IHr]; [constructor|]. inv Hl. constructor.
    - apply (IH src a b); try assumption. apply Fl. now left.
    - apply IHr; [assumption|]. intros w Hw. apply Fl. now right. }
  destruct Cv as [| | | | |l Hl|m Hm|o path ms|p v Hp Hv Hn]; cbn [resolve_step] in E; try (injection E as <-; split; [constructor|discriminate]).
  - apply rbind_ok in E. destruct E as (ys & Er & E). injection E as <-. split; [|discriminate]. constructor. eapply L; [exact Hl| |exact Er].
    intros w Hw q Hq. apply Fv. eapply ri_arr; eassumption.
  - apply rbind_ok in E. destruct E as (ys & Er & E). injection E as <-. split; [|discriminate]. constructor. apply rmap_inv in Er.
    induction Er as [|a b m ys Hab Er IHr]; [constructor|]. inversion Hm as [|? ? Ha Hm']; subst. constructor.
    + apply rbind_ok in Hab. destruct Hab as (c & Ec & Eb). injection Eb as <-. cbn. apply (IH src (snd a) c); try assumption.
      intros q Hq. apply Fv. eapply ri_obj; [left; apply surjective_pairing|exact Hq].
    + apply IHr; [exact Hm'|]. intros q Hq. inversion Hq as [|  |? k w Hi Hw| |]; subst. apply Fv. eapply ri_obj; [right; exact Hi|exact Hw].
  - apply rbind_ok in E. destruct E as (o' & Eg & E).
    assert (exists c, target src (path, ms, o) c /\ resolve n c (Some src) = ROk x) as (c & T & Ec).
    { destruct o' as [c|]; [exists c; split; [now left|exact E]|]. destruct (Fv (path, ms, o)) as (c & T); [now apply ri_self|].
      exists c. split; [exact T|]. destruct T as [T|(T & s & Es & ->)]; cbn [fst snd] in *; [congruence|]. now rewrite Es in E. }
    destruct (conf_target Cs T) as [Cc Nc]. destruct (IH src c x Cs Cc Fs (found_target Fs T) Ec) as [H1 H2]. split; [exact H1|]. intros _. now apply H2.
  - split; [|intros K; now destruct (K p v)]. pose proof (conf_vec (cf_link Hp Hv Hn)) as Cv.
    assert (Fl : forall w, In w (to_vec (CLink p v)) -> all_found src w) by (intros w Hw q Hq; apply Fv; eapply vec_ref; eassumption).
    destruct (to_vec (CLink p v)) as [|h t] eqn:Et.
    + unfold to_vec in Et. cbn in Et. destruct (rev (to_vec_rev p)); discriminate.
    + apply rbind_ok in E. destruct E as (h' & Eh & E). apply rbind_ok in E. destruct E as (t' & Er & E). injection E as <-. inversion Cv as [|? ? Ch Ct]; subst.
      apply noref_fold_push; [apply (IH src h h'); try assumption; apply Fl; now left|]. eapply L; [exact Ct| |exact Er]. intros w Hw. apply Fl. now right.
Qed.
(** The newest value of a resolved chain is the resolved newest value. *)
Lemma resolved_latest : forall n src c x, conf src -> conf c -> all_found src src -> all_found src c -> resolve n c (Some src) = ROk x ->
  resolves src (latest c) (latest x).
Proof.
  intros n src c x Cs Cc Fs Fc E. assert (NL : no_link c -> latest c = c) by (intros H; destruct c; try reflexivity; now destruct (H c1 c2)).
  assert (NX : no_link x -> latest x = x) by (intros H; destruct x; try reflexivity; now destruct (H x1 x2)).
  assert (Other : no_link c -> resolves src (latest c) (latest x)).
  { intros H. rewrite NL, NX; [now exists n| |exact H]. now apply (@resolved_noref n src c x Cs Cc Fs Fc E). }
  destruct c as [|b|s|d|d u|l|m|o l|o path ms|me f|p v]; try (apply Other; discriminate). clear Other NL NX.
  destruct n as [|n]; [discriminate|]. cbn [Hocon.resolve resolve_step] in E. inversion Cc as [| | | | | | | |? ? Hp Hv Hn]; subst.
  assert (Ev : exists h t, to_vec p = h :: t).
  { unfold to_vec. destruct (rev (to_vec_rev p)) eqn:Er; [|eauto]. assert (K : rev (rev (to_vec_rev p)) = []) by now rewrite Er. rewrite rev_involutive in K. now destruct p. }
  destruct Ev as (h & t & Ep). change (to_vec (CLink p v)) with (to_vec p ++ [v]) in E. rewrite Ep in E. cbn [app] in E.
  apply rbind_ok in E. destruct E as (h' & Eh & E). apply rbind_ok in E. destruct E as (t' & Er & E). injection E as <-.
  apply rmap_inv in Er. apply Forall2_app_inv_l in Er. destruct Er as (t1 & t2 & _ & Er & ->). inversion Er as [|? v' ? ? Ev' Er']; subst. inversion Er'; subst.
  rewrite fold_left_app. cbn [fold_left latest].
  assert (Fv : all_found src v) by (intros q Hq; apply Fc; now apply ri_value).
  destruct (@resolved_noref n src v v' Cs Hv Fs Fv Ev') as [Nv _]. rewrite push_plain by now apply noref_plain. cbn [latest]. now exists n.
Qed.
Lemma get_resolved : forall n src v c path w, conf src -> conf v -> all_found src src -> all_found src v -> resolves src v c ->
  get_value_fuel n v path = ROk (Some w) -> exists w', get_value_fuel n c path = ROk (Some w') /\ resolves src w w'.
Proof.
  induction n as [|n IH]; intros src v c path w Cs Cv Fs Fv [f E] G; [discriminate|]. cbn [get_value_fuel] in *.
  destruct (check_path path); cbn [rbind] in *; try discriminate. destruct (split_dot path) as [k r]. destruct v as [|b|s|d|d u|l|m|o l|o p ms|me fi|p v]; try discriminate.
  destruct (hm_get m k) as [ch|] eqn:Eg; [|discriminate]. destruct f as [|f]; [discriminate|]. cbn [Hocon.resolve resolve_step] in E.
  apply rbind_ok in E. destruct E as (m' & Er & E). injection E as <-.
  assert (exists ch', hm_get m' k = Some ch' /\ resolve f ch (Some src) = ROk ch') as (ch' & Eg' & Ech).
  { apply rmap_inv in Er. clear - Er Eg. induction Er as [|a b m ys Hab Er IHr]; [discriminate|]. destruct a as [k' a]. cbn [fst snd] in Hab. apply rbind_ok in Hab.
    destruct Hab as (c & Ec & Eb). injection Eb as <-. cbn [hm_get] in *. destruct (list_eq_dec N.eq_dec k k'); [injection Eg as <-; eauto|now apply IHr]. }
  rewrite Eg'. assert (Cc : conf ch) by (inversion Cv as [| | | | | |? Hm| |]; subst; apply get_in in Eg; now apply (proj1 (Forall_forall _ _) Hm) in Eg).
  assert (Fc : all_found src ch) by (intros q Hq; apply Fv; apply get_in in Eg; eapply ri_obj; eassumption).
  pose proof (@resolved_latest f src ch ch' Cs Cc Fs Fc Ech) as R. destruct r as [next|].
  - eapply IH; [exact Cs| |exact Fs| |exact R|exact G].
    + destruct ch; try exact Cc. now inversion Cc.
    + intros q Hq. apply Fc. destruct ch; try exact Hq. now apply ri_value.
  - injection G as <-. eauto.
Qed.
Lemma resolves_fun : forall src v x y, resolves src v x -> resolves src v y -> x = y.
Proof. intros src v x y [n E] [m F]. eapply resolve_det; eassumption. Qed.
Lemma ref_resolves : forall src o path ms c x, target src (path, ms, o) c -> resolves src (CRef o path ms) x -> resolves src c x.
Proof.
  intros src o path ms c x T [[|n] E]; [discriminate|]. exists n. cbn [Hocon.resolve resolve_step] in E. unfold target in T. cbn [fst snd] in T. destruct T as [T|(T & s & Es & ->)]; rewrite T in E; cbn [rbind] in E; [exact E|].
  now rewrite Es in E.
Qed.
End Refs.
