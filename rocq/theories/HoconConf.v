(** Where the hocon parsers read an enumeration, and the values of all other documents. *)
From Verif Require Import Base Core Comb Closure RepFacts LitFacts Hoare Weak Runs Reads Text Json JsonSpec JsonFacts Hocon HoconFacts HoconParse HoconLookup HoconResolve HoconRefs HoconSpec HoconText HoconSound HoconComplete.
Set Implicit Arguments.
Local Open Scope string_scope.
Local Open Scope nat_scope.
Local Open Scope list_scope.

(** ** Layout: what space_or_comment skips of any text *)
Definition comment_start (l : list N) : Prop := exists h t, l = h ++ t /\ (h = bs "#" \/ h = bs "//").
Lemma comment_or_not : forall l, no_comment l \/ comment_start l.
Proof.
  intros [|x l]; [now left|]. destruct (N.eq_dec x 35) as [->|H1]; [right; exists (bs "#"), l; auto|].
  destruct (N.eq_dec x 47) as [->|H2]; [|left; split; [exact H1|congruence]].
  destruct l as [|y l]; [left; now split|]. destruct (N.eq_dec y 47) as [->|H3]; [right; exists (bs "//"), l; auto|left; now split].
Qed.
Lemma till_newline : forall l, (exists t x r, l = t ++ [x] ++ r /\ Forall (fun y => ~ newline y) t /\ newline x) \/ Forall (fun y => ~ newline y) l.
Proof.
  induction l as [|x l IH]; [right; constructor|].
  assert (Dx : newline x \/ ~ newline x) by (unfold newline; destruct (N.eq_dec x 10), (N.eq_dec x 13); tauto).
  destruct Dx as [Hx|Hx]; [left; now exists [], x, l|]. destruct IH as [(t & y & r & -> & H1 & H2)|H]; [|right; now constructor].
  left. exists (x :: t), y, r. repeat split; [now constructor|exact H2].
Qed.
Lemma ws_split : forall l, exists w r, l = w ++ r /\ ws w /\ no_ws r.
Proof.
  induction l as [|x l (w & r & -> & H1 & H2)]; [exists [], []; repeat split; constructor|].
  destruct (in_dec N.eq_dec x [32; 9; 13; 10]%N) as [Hx|Hx].
  - exists (x :: w), r. repeat split; [now constructor|exact H2].
  - exists [], (x :: w ++ r). repeat split; [constructor|exact Hx].
Qed.
Lemma a_line_end : forall t, Forall (fun y => ~ newline y) t -> acc comment_tail t [] t.
Proof.
  intros t Ht pre. unfold comment_tail, p_take_till0. rewrite input_at, app_nil_r, tt_loop_miss.
  - reflexivity.
  - intros y Hy. rewrite Forall_forall in Ht. specialize (Ht y Hy). unfold newline in Ht. destruct (N.eqb_spec y 13), (N.eqb_spec y 10); tauto.
Qed.
Lemma a_open_line : forall h t, h = bs "#" \/ h = bs "//" -> Forall (fun y => ~ newline y) t -> acc (p_and comment_head comment_tail) (h ++ t) [] (h, t).
Proof.
  intros h t Hh Ht. eapply a_and; [|now apply a_line_end]. rewrite app_nil_r. unfold comment_head. destruct Hh as [->| ->].
  - apply a_or2; [eapply r_attempt, r_collect, r_seqN; discriminate|eapply a_collect, a_elm_ref].
  - apply a_or1. eapply a_attempt, a_collect, a_seqN.
Qed.
Lemma comments_split : forall l, exists cs r, l = List.concat cs ++ r /\ Forall comment_line cs /\
  (no_comment r \/ exists h t, r = h ++ t /\ (h = bs "#" \/ h = bs "//") /\ Forall (fun y => ~ newline y) t).
Proof.
  intros l. induction l as [l IH] using (well_founded_induction (Wf_nat.well_founded_ltof _ (@length N))).
  destruct (comment_or_not l) as [H|(h & t & -> & Hh)]; [exists [], l; repeat split; auto|].
  destruct (till_newline t) as [(u & x & r & -> & H1 & H2)|H]; [|exists [], (h ++ t); repeat split; [constructor|right; now exists h, t]].
  destruct (IH r) as (cs & q & -> & Hc & Hq); [unfold Wf_nat.ltof; rewrite !app_length; cbn; lia|].
  exists ((h ++ u ++ [x]) :: cs), q. split; [cbn [List.concat]; now rewrite <- !app_assoc|]. split; [|exact Hq].
  constructor; [|exact Hc]. now exists h, u, x.
Qed.
Lemma chain_app_one : forall A (p : parser N A) s r vs t v, chain p s (t ++ r) vs -> acc p t r v -> t <> [] -> chain p (s ++ t) r (vs ++ [v]).
Proof.
  intros A p s r vs t v H H1 H2. remember (t ++ r) as q eqn:Eq. induction H as [q|s s' q v0 vs Ha Hn H IH].
  - subst q. cbn. rewrite <- (app_nil_r t). constructor; [exact H1|exact H2|constructor].
  - specialize (IH Eq). subst q. rewrite <- app_assoc. cbn [app]. constructor; [rewrite <- app_assoc; exact Ha|exact Hn|exact IH].
Qed.
Lemma soc_total : forall l, exists g r, l = g ++ r /\ skips g r /\ no_comment r /\ (no_ws r \/ exists u c, g = u ++ c /\ comment_line c).
Proof.
  intros l. destruct (ws_split l) as (w & m & -> & Hw & Hm). destruct (comments_split m) as (cs & r & -> & Hc & [Hr|(h & t & -> & Hh & Ht)]).
  - destruct cs as [|c cs].
    + exists w, r. cbn in Hm |- *. repeat split; [|exact Hr|now left]. apply skips_ws; [exact Hw|]. destruct r; [exact I|]. split; [exact Hm|exact Hr].
    + exists (w ++ List.concat (c :: cs)), r. repeat split; [now rewrite <- app_assoc|apply skips_comments; [exact Hw|exact Hc|discriminate|exact Hr]|exact Hr|].
      right. destruct (exists_last (l := c :: cs)) as (ds & d & E); [discriminate|]. rewrite E in Hc |- *. apply Forall_app in Hc.
      exists (w ++ List.concat ds), d. split; [rewrite concat_app; cbn; now rewrite app_nil_r, <- app_assoc|]. destruct Hc as [_ Hc]. now inv Hc.
  - exists (w ++ List.concat cs ++ h ++ t), []. rewrite app_nil_r. repeat split; [|now left].
    destruct (chain_comments (h ++ t ++ []) Hc) as (vs & C & _). unfold skips, space_or_comment.
    eapply a_discard, a_or1, a_attempt, a_collect, a_and.
    + apply a_hspace; [exact Hw|]. now rewrite app_nil_r.
    + eapply a_many1; [|eapply r_and1, r_comment_head; exact I|].
      * eapply chain_app_one; [|now apply a_open_line|destruct Hh as [->| ->]; discriminate]. rewrite <- app_assoc. exact C.
      * intros E. apply app_eq_nil in E. destruct E; discriminate.
Qed.
Lemma rd_soc_exact : reads space_or_comment (fun _ a r => no_comment r /\ (no_ws r \/ exists u c, a = u ++ c /\ comment_line c)).
Proof.
  intros pre l v n E. destruct (soc_total l) as (g & r & -> & S & H1 & H2). specialize (S pre). rewrite E in S. injection S as -> ->. now exists g, r.
Qed.
Lemma skips_lay : forall g r, skips g r -> lay g r.
Proof.
  intros g r S. destruct (rd_soc [] (g ++ r) (S [])) as (a & b & E & L & H). assert (Eg : a = g).
  { apply (f_equal (firstn (length g))) in E. rewrite firstn_app, firstn_all, Nat.sub_diag in E. rewrite <- L, firstn_app, firstn_all, Nat.sub_diag in E.
    cbn in E. now rewrite !app_nil_r in E. }
  subst a. apply app_inv_head in E. now subst b.
Qed.

(** ** Strings *)
Definition blank_start (l : list N) : Prop := match l with [] => False | x :: _ => x = 32%N \/ x = 9%N end.
Lemma skips_newline : forall g r, skips g r -> g <> [] -> no_comment (g ++ r) -> ~ blank_start (g ++ r) -> exists x t, g ++ r = x :: t /\ (x = 10%N \/ x = 13%N).
Proof.
  intros g r S Hn Hc Hb. apply skips_lay in S. destruct S as [r|x g r Hx S|c g r (h & t & x & -> & Hh & _) S|h t Hh Ht]; [congruence| | |].
  - exists x, (g ++ r). split; [reflexivity|]. cbn in Hb, Hx. intuition congruence.
  - exfalso. destruct Hh as [->| ->]; cbn in Hc; [now destruct Hc|]. destruct Hc as [_ Hc]. now apply Hc.
  - exfalso. destruct Hh as [->| ->]; cbn in Hc; [now destruct Hc|]. destruct Hc as [_ Hc]. now apply Hc.
Qed.
Lemma spaced_eq : forall A (p : parser N A) inp off k, space_or_comment inp off = Success tt k ->
  spaced p inp off = match p_skip_right p space_or_comment inp (off + k) with
                     | Success v n => Success v (k + n) | Failure e c => Failure e c | Panic => Panic | Diverge => Diverge end.
Proof. intros A p inp off k E. unfold spaced, p_surround. unfold p_skip_left. now rewrite E. Qed.
Lemma surround_success : forall A B C (lp : parser N A) (p : parser N B) (rp : parser N C) inp off v n, p_surround lp p rp inp off = Success v n <->
  exists a i j, lp inp off = Success a i /\ p_skip_right p rp inp (off + i) = Success v j /\ n = i + j.
Proof.
  intros A B C lp p rp inp off v n. unfold p_surround, p_skip_left. split.
  - destruct (lp inp off) as [a i| | |]; try discriminate. destruct (p_skip_right p rp inp (off + i)) as [b j| | |] eqn:E; try discriminate.
    intros H. injection H as -> <-. exists a, i, j. auto.
  - intros (a & i & j & -> & -> & ->). reflexivity.
Qed.
Lemma quoted_again : forall q pre g r vs n, q = 34%N \/ q = 39%N -> skips g r ->
  p_surround (spaced (p_elm_ref q)) string_surround (spaced (p_elm_ref q)) (pre ++ g ++ r) (length pre) = Success vs n ->
  exists m, p_surround (spaced (p_elm_ref q)) string_surround (spaced (p_elm_ref q)) (pre ++ g ++ r) (length pre + length g) = Success vs m.
Proof.
  intros q pre g r vs n Hq S E. set (inp := pre ++ g ++ r) in *. pose proof (S pre) as Sp. fold inp in Sp.
  apply surround_success in E. destruct E as (x & i & j & E1 & E2 & ->). rewrite (@spaced_eq _ _ _ _ _ Sp) in E1.
  destruct (p_skip_right (p_elm_ref q) space_or_comment inp (length pre + length g)) as [x' k| | |] eqn:E3; try discriminate. injection E1 as -> <-.
  assert (S0 : space_or_comment inp (length pre + length g) = Success tt 0).
  { destruct r as [|z t]; [|destruct (N.eq_dec z q) as [->|Hz]].
    - exfalso. unfold p_skip_right in E3. destruct (@r_elm_ref q [] I (pre ++ g)) as [e Ee]. rewrite <- app_assoc, app_length in Ee. fold inp in Ee. rewrite Ee in E3. discriminate.
    - assert (So : solid (q :: t)) by (destruct Hq as [->| ->]; shd). pose proof (@skips_nil _ So (pre ++ g)) as K. rewrite app_length, <- app_assoc in K. exact K.
    - exfalso. unfold p_skip_right in E3. destruct (@r_elm_ref q (z :: t) Hz (pre ++ g)) as [e Ee]. rewrite <- app_assoc, app_length in Ee. fold inp in Ee. rewrite Ee in E3. discriminate. }
  exists (0 + k + j). apply surround_success. exists x, (0 + k), j. split; [|split; [|reflexivity]].
  - rewrite (@spaced_eq _ _ _ _ _ S0), Nat.add_0_r, E3. reflexivity.
  - rewrite <- E2. f_equal. lia.
Qed.
Lemma or_uncommitted : forall A (p q : parser N A) inp off v n, p_or (p_attempt p) q inp off = Success v n <->
  p inp off = Success v n \/ (exists e c, p inp off = Failure e c) /\ q inp off = Success v n.
Proof.
  intros A p q inp off v n. unfold p_or, p_attempt. destruct (p inp off) as [w m|e c| |]; cbn.
  - split; [auto|]. intros [H|((e & c & H) & _)]; [exact H|discriminate].
  - replace (match _ with Success value len => Success value len | Failure e0 c0 => _ | Panic => Panic | Diverge => Diverge end) with (q inp off) by now destruct c.
    split; [intros H; right; split; [now exists e, c|exact H]|]. intros [H|(_ & H)]; [discriminate|exact H].
  - split; [discriminate|]. intros [H|((e & c & H) & _)]; discriminate.
  - split; [discriminate|]. intros [H|((e & c & H) & _)]; discriminate.
Qed.
(** A string that is read before layout is also read after it, unless it begins with a blank. *)
Lemma string_again : forall pre g r s n, skips g r -> no_comment (g ++ r) -> ~ blank_start (g ++ r) -> hstring (pre ++ g ++ r) (length pre) = Success s n ->
  exists s' m, hstring (pre ++ g ++ r) (length pre + length g) = Success s' m.
Proof.
  intros pre g r s n S Hc Hb E. destruct g as [|y g]; [exists s, n; cbn [length]; rewrite Nat.add_0_r; exact E|].
  set (gg := y :: g) in *. destruct (@skips_newline gg r S) as (x & t & El & Hx); [discriminate|exact Hc|exact Hb|].
  unfold hstring, p_map in E.
  assert (Qs : (exists vs k, p_surround double_quote string_surround double_quote (pre ++ gg ++ r) (length pre) = Success vs k) \/
               (exists vs k, p_surround single_quote string_surround single_quote (pre ++ gg ++ r) (length pre) = Success vs k)).
  { destruct (p_or _ _ (pre ++ gg ++ r) (length pre)) as [vs k| | |] eqn:E1; try discriminate. unfold p_or at 1 in E1.
    destruct (p_or (p_attempt _) _ (pre ++ gg ++ r) (length pre)) as [ws k'|e c| |] eqn:E2; try discriminate.
    - apply or_uncommitted in E2. destruct E2 as [E2|[_ E2]]; [left; eauto|]. right. unfold p_attempt in E2.
      destruct (p_surround single_quote string_surround single_quote (pre ++ gg ++ r) (length pre)) as [us j|e0 [|]| |]; try discriminate. eauto.
    - destruct c; [discriminate|]. cbn [negb] in E1. exfalso.
      assert (St : str_end (gg ++ r)) by (rewrite El; cbn; unfold stop_char; cbn; destruct Hx as [->| ->]; split; [tauto|discriminate|tauto|discriminate]).
      destruct (@r_surround_end _ St pre) as [e' E']. congruence. }
  pose proof (@h_hstring (pre ++ gg ++ r) (length pre + length gg)) as H. rewrite !app_length in H. specialize (H ltac:(lia)).
  unfold hstring, p_map, p_or, p_attempt in H |- *. destruct Qs as [(vs & k & Q)|(vs & k & Q)]; apply quoted_again in Q; auto; destruct Q as (m & Q).
  - change (p_surround double_quote string_surround double_quote (pre ++ gg ++ r) (length pre + length gg) = Success vs m) in Q. rewrite Q. cbn. eauto.
  - change (p_surround single_quote string_surround single_quote (pre ++ gg ++ r) (length pre + length gg) = Success vs m) in Q. rewrite Q in H |- *.
    destruct (p_surround double_quote string_surround double_quote (pre ++ gg ++ r) (length pre + length gg)) as [us j|e [|]| |]; cbn in H |- *; eauto; contradiction.
Qed.

(** ** Values without enumerations *)
Section Conf.
Variable D : Type.
Variable dec : list N -> option D.
Notation cv := (cv D).
Notation key := (list N).
Notation entries := (list (key * cv)).
Notation all_conf := (Forall (fun kv : key * cv => conf (snd kv))).
Definition confl (v : cv) : Prop := conf v /\ no_link v.
Lemma conf_push : forall v c : cv, conf v -> confl c -> conf (push v c).
Proof.
  intros v c Hv [Hc Hn]. unfold push. destruct c; constructor; try assumption; try discriminate. constructor.
Qed.
Lemma conf_set : forall (m : entries) k v, all_conf m -> conf v -> all_conf (hm_set m k v).
Proof.
  intros m k v H Hv. induction H as [|[k' x] m Hx H IH]; cbn; [now repeat constructor|].
  destruct (list_eq_dec N.eq_dec k k'); constructor; auto.
Qed.
Lemma conf_lookup : forall (m : entries) k v, all_conf m -> hm_get m k = Some v -> conf v.
Proof. intros m k v H E. apply get_in in E. now apply (proj1 (Forall_forall _ _) H) in E. Qed.
Lemma merge_no_link : forall (r l : cv), no_link l -> no_link (merge_with l r).
Proof.
  intros r l H. unfold merge_with. destruct l; try (now destruct (H l1 l2)); destruct r; cbn; discriminate.
Qed.
Lemma conf_merge_link : forall (r p x : cv), conf p -> conf x -> no_link x -> (forall l, conf l -> no_link l -> conf (merge_with l r)) ->
  conf (merge_with (CLink p x) r).
Proof.
  intros r p x Hp Hx Hn H. destruct r; try (now constructor);
    (match goal with |- conf (merge_with _ ?r) => change (conf (push (CLink p x) (merge_with x r))) end;
     apply conf_push; [now constructor|split; [now apply H|now apply merge_no_link]]).
Qed.
Lemma conf_merge : forall r l : cv, conf r -> conf l -> conf (merge_with l r).
Proof.
  intros r. induction r as [|b|s|d|d u|lr Hlr|m Hm|o lr Ho Hlr|o path ms Ho|me f|p v Hp Hv] using cv_ind2; intros l Hr Hl;
    match goal with |- conf (merge_with _ ?r) => assert (K : forall l, conf l -> no_link l -> conf (merge_with l r));
      [clear l Hl; intros l Hl Hn; destruct l; try (now destruct (Hn l1 l2)); try exact Hl
      |inversion Hl as [| | | | | | | |p2 v2 P2 V2 N2]; subst; solve [apply K; [exact Hl|discriminate]|apply conf_merge_link; assumption]] end.
  - cbn. inv Hr. inv Hl. constructor. apply Forall_app. now split.
  - rewrite merge_obj. inv Hr. inv Hl. constructor. clear Hn. rename m0 into m2, H1 into M2. unfold merge_maps.
    revert m2 M2. induction m as [|[k x] m IH]; intros m2 M2; [exact M2|].
    inversion Hm as [|? ? Hx Hm']; subst. inversion H0 as [|? ? Nx Nm]; subst. cbn [fold_left fst snd] in *. apply IH; [exact Hm'|exact Nm|].
    destruct (hm_get m2 k) as [y|] eqn:E; apply conf_set; try assumption. apply Hx; [assumption|]. now apply (conf_lookup _ M2 E).
Qed.
Lemma conf_nest : forall ks (v : cv), conf v -> conf (nest ks v).
Proof. induction ks as [|k ks IH]; intros v H; [exact H|]. cbn [nest fold_right]. constructor. constructor; [now apply IH|constructor]. Qed.
Lemma conf_top_insert : forall (m : entries) k v, all_conf m -> conf v -> all_conf (top_insert m (k, v)).
Proof.
  intros m k v Hm Hv. unfold top_insert. cbn [fst snd]. destruct (hm_get m k) as [y|] eqn:E; apply conf_set; try assumption.
  apply conf_merge; [assumption|]. now apply (conf_lookup _ Hm E).
Qed.
Lemma conf_undot : forall es (m : entries), Forall (fun e : list key * cv => conf (snd e)) es -> all_conf m -> all_conf (fold_left (@undot_entry D) es m).
Proof.
  induction es as [|[ks v] es IH]; intros m He Hm; [exact Hm|]. inv He. cbn [fold_left]. apply IH; [assumption|]. unfold undot_entry. cbn [fst snd].
  destruct ks as [|k ks]; [exact Hm|]. apply conf_top_insert; [exact Hm|now apply conf_nest].
Qed.
Lemma conf_obj_fold : forall ps : entries, Forall (fun kv => confl (snd kv)) ps -> all_conf (obj_fold ps).
Proof.
  intros ps H. unfold obj_fold. assert (K : forall m : entries, all_conf m -> all_conf (fold_left (@obj_insert D) ps m)).
  { induction H as [|[k v] ps Hv H IH]; intros m Hm; [exact Hm|]. cbn [fold_left]. apply IH. unfold obj_insert. cbn [fst snd] in *.
    destruct (hm_get m k) as [y|] eqn:E; apply conf_set; try assumption; [|apply Hv]. apply conf_push; [now apply (conf_lookup _ Hm E)|exact Hv]. }
  apply K. constructor.
Qed.
Lemma conf_top_fold : forall ps : entries, Forall (fun kv => confl (snd kv)) ps -> all_conf (top_fold ps).
Proof.
  intros ps H. unfold top_fold. assert (K : forall m : entries, all_conf m -> all_conf (fold_left (@top_insert D) ps m)).
  { induction H as [|[k v] ps Hv H IH]; intros m Hm; [exact Hm|]. cbn [fold_left]. apply IH. apply conf_top_insert; [exact Hm|apply Hv]. }
  apply K. constructor.
Qed.

(** *** Expanding dotted keys always returns *)
Section Expand.
Variable env files : list N -> option (list N).
Notation resolve := (resolve dec env files).
Lemma conf_expands : forall v : cv, conf v -> exists n x, conf x /\ forall fuel, n <= fuel -> resolve fuel v None = ROk x.
Proof.
  intros v. induction v as [|b|s|d|d u|l Hl|m Hm|o l Ho Hl|o path ms Ho|me f|p v Hp Hv] using cv_ind2; intros H; pose proof H as H'; inv H;
    try solve [eexists 1, _; split; [exact H'|]; intros [|fuel] Hf; [lia|reflexivity]].
  set (g := fun kv : key * cv => set_contains (fst kv) 46%N).
  assert (A : exists n es, Forall (fun e : list key * cv => conf (snd e)) es /\ forall fuel, n <= fuel ->
    rmap (fun kv => rbind (resolve fuel (snd kv) None) (fun c => ROk (split_all (fst kv), c))) (filter g m) = ROk es).
  { clear H'. induction Hm as [|[k v] m Hx Hm IH]; [exists 0, []; split; [constructor|reflexivity]|]. inv H1.
    destruct (IH H3) as (n & es & He & Er). destruct (Hx H2) as (n' & x & Nx & Ex). cbn [filter]. destruct (g (k, v)).
    - exists (n + n'), ((split_all k, x) :: es). split; [now constructor|]. intros fuel Hf. cbn [rmap fst snd] in *. rewrite Ex by lia. cbn [rbind].
      rewrite Er by lia. reflexivity.
    - exists n, es. auto. }
  destruct A as (n & es & He & Er). pose proof (conf_undot He (Forall_nil _)) as U.
  exists (S n), (match fold_left (@undot_entry D) es [] with [] => CObj m | m' => CObj m' end). split.
  - destruct (fold_left (@undot_entry D) es []); [exact H'|now constructor].
  - intros [|fuel] Hf; [lia|]. cbn [Hocon.resolve resolve_step]. fold g. rewrite Er by lia. cbn [rbind]. now destruct (fold_left (@undot_entry D) es []).
Qed.
Lemma conf_stage0 : forall vs, vs <> [] -> Forall (@conf D) vs -> exists n x, conf x /\ forall fuel, n <= fuel -> resolve_stage0 (resolve fuel) vs = ROk x.
Proof.
  intros [|v vs] Hne Hv; [congruence|]. inv Hv. destruct (conf_expands H1) as (n1 & x & Nx & Ex).
  assert (A : exists n2 ys, Forall (@conf D) ys /\ forall fuel, n2 <= fuel -> rmap (fun c => resolve fuel c None) vs = ROk ys).
  { clear Hne. induction H2 as [|y vs Hy H2 IH]; [exists 0, []; split; [constructor|reflexivity]|]. destruct IH as (n2 & ys & Ny & Ey).
    destruct (conf_expands Hy) as (n3 & z & Nz & Ez). exists (n2 + n3), (z :: ys). split; [now constructor|]. intros fuel Hf. cbn [rmap]. rewrite Ez by lia.
    cbn [rbind]. rewrite Ey by lia. reflexivity. }
  destruct A as (n2 & ys & Ny & Ey). exists (n1 + n2), (fold_left (@merge_with D) ys x). split.
  - clear Ex Ey. revert x Nx. induction Ny as [|y ys Hy Ny IH]; intros x Nx; [exact Nx|]. cbn [fold_left]. apply IH. now apply conf_merge.
  - intros fuel Hf. unfold resolve_stage0. rewrite Ex by lia. cbn [rbind]. rewrite Ey by lia. reflexivity.
Qed.
End Expand.

(** *** What the parsers read of a text in which no comment line is followed by a space or a tab *)
Definition indented (l : list N) : Prop := exists u c b r, l = u ++ c ++ b :: r /\ comment_line c /\ (b = 32%N \/ b = 9%N).
Definition calm (l : list N) : Prop := ~ indented l.
Lemma calm_suffix : forall u l, calm (u ++ l) -> calm l.
Proof. intros u l H (v & c & b & r & -> & K). apply H. exists (u ++ v), c, b, r. now rewrite <- app_assoc. Qed.
Definition q_conf (v : cv) (s r : list N) : Prop := calm (s ++ r) -> confl v.
Definition q_entry (kv : key * cv) (s r : list N) : Prop := calm (s ++ r) -> confl (snd kv).
Lemma rd_any : forall A (p : parser N A) Q, reads p Q -> reads p (fun _ _ _ => True).
Proof. intros A p Q H. eapply rd_weaken; [exact H|auto]. Qed.
Definition unc {A} (p : parser N A) : Prop := forall inp off e c, p inp off = Failure e c -> c = false.
Lemma unc_attempt : forall A (p : parser N A), unc (p_attempt p).
Proof. intros A p inp off e c. unfold p_attempt. destruct (p inp off) as [? ?|? [|]| |]; cbn; try discriminate; congruence. Qed.
Lemma unc_or : forall A (p q : parser N A), unc p -> unc q -> unc (p_or p q).
Proof.
  intros A p q Hp Hq inp off e c. unfold p_or. destruct (p inp off) as [? ?|e' c'| |] eqn:E; try discriminate. rewrite (Hp _ _ _ _ E). cbn. apply Hq.
Qed.
(** parsers.rs 285-290: the alternatives of simple(). *)
Definition simple_alts : parser N cv :=
  p_or (p_or (p_or (p_or (p_or
    (p_attempt (p_map (p_seqN (bs "null")) (fun _ => CNull)))
    (p_attempt (p_map (p_seqN (bs "true")) (fun _ => CBool true))))
    (p_attempt (p_map (p_seqN (bs "false")) (fun _ => CBool false))))
    (p_attempt (duration_value dec)))
    (p_attempt (p_map (number_value dec) CNum)))
    (@string_cv D).
Lemma rd_alts_conf : reads simple_alts (fun v _ _ => confl v).
Proof.
  assert (W : forall w (v : cv), confl v -> reads (p_attempt (p_map (p_seqN w) (fun _ => v))) (fun v _ _ => confl v)).
  { intros w v H. apply rd_attempt. eapply rd_map; [apply rd_hoare; eapply h_seqN with (R := fun _ s => s = w); reflexivity|auto]. }
  unfold simple_alts. repeat apply rd_or; try (apply W; split; [constructor|discriminate]).
  - apply rd_attempt. eapply rd_weaken; [apply rd_duration|]. cbv beta. intros v s r (a & n & g & w & d & u & -> & H1 & H2 & H3 & H4 & ->). split; [constructor|discriminate].
  - apply rd_attempt. eapply rd_map; [apply rd_number|]. intros. split; [constructor|discriminate].
  - eapply rd_weaken; [apply rd_string_cv|]. cbv beta. intros v s r (x & -> & H). split; [constructor|discriminate].
Qed.
Lemma rd_simple_conf : reads (simple_cv dec) (fun v _ _ => confl v).
Proof. unfold simple_cv. eapply rd_spaced; [exact rd_alts_conf|auto]. Qed.
Section Step.
Variable value : parser N cv.
Variable prop : parser N (key * cv).
Hypothesis Hv : reads value q_conf.
Hypothesis Hp : reads prop q_entry.
Lemma seps_conf : forall A B (P : A -> Prop) vs u r, Seps (fun v s r => calm (s ++ r) -> P v) (fun (_ : B) _ _ => True) vs u r -> calm (u ++ r) -> Forall P vs.
Proof.
  intros A B P vs u r H. induction H as [r|w t r Hc|w t v' s' vs u r Hc Hv' H IH]; intros C; [constructor|constructor|].
  rewrite <- !app_assoc in C. apply calm_suffix in C. constructor; [now apply Hv'|]. apply calm_suffix in C. now apply IH.
Qed.
Lemma rd_array_conf : reads (@array_cv D value) q_conf.
Proof.
  unfold array_cv. eapply rd_map; [eapply rd_surround; [eapply rd_any, rd_quote| |eapply rd_any, rd_quote|]|].
  - eapply rd_many0_sep with (Q := q_conf) (S := fun _ _ _ => True); [apply rd_lazy, Hv|eapply rd_any, rd_comma| |].
    + intros r. refine (_ : (fun vs s r => calm (s ++ r) -> Forall confl vs) [] [] r). constructor.
    + cbv beta. intros v s vs t r H1 H2 C. rewrite <- app_assoc in C. constructor; [now apply H1|]. apply calm_suffix in C. exact (@seps_conf _ _ confl _ _ _ H2 C).
  - cbv beta. intros _ vs _ s1 s2 s3 r _ H _.
    refine (_ : (fun vs s r => calm (s ++ r) -> Forall confl vs) vs (s1 ++ s2 ++ s3) r).
    intros C. rewrite <- !app_assoc in C. apply calm_suffix in C. auto.
  - cbv beta. intros vs s r H C. split; [|discriminate]. constructor. eapply Forall_impl; [|exact (H C)]. now intros a [Ha _].
Qed.
Lemma rd_object_conf : reads (@object_cv D prop) q_conf.
Proof.
  unfold object_cv. eapply rd_map; [eapply rd_surround; [eapply rd_any, rd_quote| |eapply rd_any, rd_quote|]|].
  - eapply rd_many0_sep with (Q := q_entry) (S := fun (_ : option N) _ _ => True); [apply rd_lazy, Hp|eapply rd_opt; [apply rd_comma|auto|auto]| |].
    + intros r. refine (_ : (fun vs s r => calm (s ++ r) -> Forall (fun kv : key * cv => confl (snd kv)) vs) [] [] r). constructor.
    + cbv beta. intros v s vs t r H1 H2 C. rewrite <- app_assoc in C. constructor; [now apply H1|]. apply calm_suffix in C. exact (@seps_conf _ _ (fun kv : key * cv => confl (snd kv)) _ _ _ H2 C).
  - cbv beta. intros _ vs _ s1 s2 s3 r _ H _.
    refine (_ : (fun vs s r => calm (s ++ r) -> Forall (fun kv : key * cv => confl (snd kv)) vs) vs (s1 ++ s2 ++ s3) r).
    intros C. rewrite <- !app_assoc in C. apply calm_suffix in C. auto.
  - cbv beta. intros vs s r H C. split; [|discriminate]. constructor. now apply conf_obj_fold, H.
Qed.
Lemma rd_property_conf : reads (@property_step D value prop) q_entry.
Proof.
  unfold property_step. eapply rd_and with (P := fun _ _ _ => True) (Q := q_conf); [eapply rd_any, rd_key| |].
  - repeat apply rd_or.
    + apply rd_attempt. eapply rd_skip_left with (P := fun _ _ _ => True); [|apply rd_lazy, Hv|].
      * eapply rd_any, rd_hoare. eapply h_discard; [apply h_elm_ref_of|].
        { intros x Hx. exact (I : (fun _ _ => True) x [x]). }
        { intros x s _. exact (I : (fun _ _ => True) tt s). }
      * cbv beta. intros a v s t r _ H C. rewrite <- app_assoc in C. apply calm_suffix in C. now apply H.
    + apply rd_attempt. apply rd_object_conf.
    + apply rd_array_conf.
  - cbv beta. intros k v s t r _ H C. rewrite <- app_assoc in C. apply calm_suffix in C. now apply H.
Qed.
Lemma core_conf : reads (p_or (p_or (p_or (p_or (p_attempt (array_cv value)) (p_attempt (object_cv prop))) (p_attempt (@reference_cv D))) (p_attempt (simple_cv dec)))
  (@enumeration_cv D)) (fun v s r => calm (s ++ r) -> no_comment (s ++ r) -> ~ blank_start (s ++ r) -> confl v).
Proof.
  intros pre l v n E. set (inp := pre ++ l) in *.
  assert (R : reads (p_or (p_or (p_or (p_attempt (array_cv value)) (p_attempt (object_cv prop))) (p_attempt (@reference_cv D))) (p_attempt (simple_cv dec))) q_conf).
  { repeat apply rd_or; apply rd_attempt; [apply rd_array_conf|apply rd_object_conf| |eapply rd_weaken; [apply rd_simple_conf|now intros v0 s0 r0 H0 _]].
    eapply rd_weaken; [apply rd_reference_cv|]. cbv beta. intros v0 s r (p & o & -> & _) _. split; [constructor|discriminate]. }
  unfold p_or at 1 in E. destruct (p_or (p_or _ _) (p_attempt (simple_cv dec)) inp (length pre)) as [v1 n1|e c| |] eqn:E1; try discriminate.
  { injection E as -> ->. destruct (R _ _ _ _ E1) as (s & r & -> & L & H). exists s, r. split; [reflexivity|]. split; [exact L|]. intros C _ _. now apply H. }
  destruct c; [discriminate|]. cbn [negb] in E. destruct (@rd_enumeration D dec pre l v n E) as (s & r & -> & L & _). exists s, r. split; [reflexivity|]. split; [exact L|].
  intros _ Hc Hb. exfalso. fold inp in E.
  (* the first element of the enumeration *)
  unfold enumeration_cv, p_map in E. destruct (p_many1 _ inp (length pre)) as [vs k| | |] eqn:Em; try discriminate. clear E.
  unfold p_many1 in Em. apply many_none_success in Em; [| |unfold inp; rewrite app_length; lia|exact I].
  2:{ eapply rd_bounded. apply rd_or; [eapply rd_attempt, rd_any, rd_string_cv|eapply rd_any, rd_reference_cv]. }
  destruct Em as (St & Hm & _). 
  assert (E2 : exists w m, p_or (p_attempt (@string_cv D)) (@reference_cv D) inp (length pre) = Success w m) by (inversion St; subst; [cbn in Hm; lia|eauto]).
  clear Hm St. destruct E2 as (w & m & E2).
  unfold p_or at 1 in E1. destruct (p_or (p_or _ _) (p_attempt (@reference_cv D)) inp (length pre)) as [? ?|e' c'| |] eqn:E3; try discriminate.
  destruct c'; [discriminate|]. cbn [negb] in E1.
  assert (Er : exists e c, @reference_cv D inp (length pre) = Failure e c).
  { unfold p_or at 1 in E3. destruct (p_or _ _ inp (length pre)) as [? ?|e2 c2| |]; try discriminate. destruct c2; [discriminate|]. cbn [negb] in E3. unfold p_attempt in E3.
    destruct (@reference_cv D inp (length pre)) as [? ?|? [|]| |]; try discriminate; eauto. }
  apply or_uncommitted in E2. destruct E2 as [E2|(_ & E2)]; [|destruct Er as (? & ? & Er); congruence].
  unfold string_cv, p_map in E2. destruct (hstring inp (length pre)) as [x j| | |] eqn:Eh; try discriminate. clear E2.
  destruct (soc_total (s ++ r)) as (g & q & Eg & Sg & Hq & _).
  destruct (@string_again pre g q x j Sg) as (x' & j' & E4); [now rewrite <- Eg|now rewrite <- Eg|rewrite <- Eg; exact Eh|].
  unfold p_attempt in E1. rewrite <- Eg in E4. fold inp in E4.
  assert (Es : exists e c, simple_cv dec inp (length pre) = Failure e c).
  { destruct (simple_cv dec inp (length pre)) as [? ?|? [|]| |]; try discriminate; eauto. }
  destruct Es as (e1 & c1 & Es). unfold simple_cv in Es. pose proof (Sg pre) as Sp. rewrite <- Eg in Sp. fold inp in Sp. rewrite (@spaced_eq _ _ _ _ _ Sp) in Es.
  unfold p_skip_right in Es.
  fold simple_alts in Es.
  destruct (simple_alts inp (length pre + length g)) as [y i|e2 c2| |] eqn:E5; try discriminate.
  - assert (B : length pre + length g + i <= length inp).
    { eapply (rd_bounded rd_alts_conf); [|exact E5]. unfold inp; rewrite app_length, Eg, app_length; lia. }
    destruct (soc_total (skipn (length pre + length g + i) inp)) as (g2 & q2 & Eg2 & S2 & _).
    specialize (S2 (firstn (length pre + length g + i) inp)). rewrite <- Eg2, firstn_skipn, firstn_length_le in S2 by exact B. rewrite S2 in Es. discriminate.
  - unfold simple_alts in E5. unfold p_or at 1 in E5.
    match type of E5 with match ?p inp ?off with _ => _ end = _ => assert (U : unc p) by (repeat apply unc_or; apply unc_attempt); destruct (p inp off) as [? ?|e3 c3| |] eqn:E6 end;
      try discriminate.
    rewrite (U _ _ _ _ E6) in E5. cbn [negb] in E5. unfold string_cv, p_map in E5. rewrite E4 in E5. discriminate.
Qed.
Lemma rd_value_conf : reads (value_step dec value prop) q_conf.
Proof.
  unfold value_step. unfold spaced. eapply rd_surround; [apply rd_soc_exact|apply core_conf|eapply rd_any, rd_soc|].
  cbv beta. intros _ v _ a s b r [Hc Hw] H _ C. rewrite <- !app_assoc in C.
  apply H; [now apply calm_suffix in C|exact Hc|]. intros Hb. destruct (s ++ b ++ r) as [|x t] eqn:E; [contradiction|]. destruct Hw as [Hw|(u & c & -> & Hl)].
  - apply Hw. cbn in Hb. unfold is_ws. cbn. destruct Hb as [->| ->]; auto.
  - apply C. exists u, c, x, t. rewrite <- app_assoc. auto.
Qed.
(** parsers.rs 304-317: the value of an include line. *)
Definition is_incl (v : cv) : Prop := exists m f, v = CIncl m f.
Lemma reps_conf : forall A (P : A -> Prop) vs u r, Reps (fun v s r => calm (s ++ r) -> P v) vs u r -> calm (u ++ r) -> Forall P vs.
Proof.
  intros A P vs u r H. induction H as [r|v s vs t r Hq H IH]; intros C; [constructor|].
  rewrite <- !app_assoc in C. constructor; [now apply Hq|]. apply calm_suffix in C. now apply IH.
Qed.
Lemma rd_config_conf : reads (@config_step D value prop) (fun vs s r => calm (s ++ r) -> Forall (@conf D) vs \/ vs <> [] /\ Forall is_incl vs).
Proof.
  unfold config_step. repeat apply rd_or.
  - apply rd_attempt. eapply rd_map; [eapply rd_many1; [apply rd_property_conf|]|].
    + intros ps s r _ H. refine (_ : (fun ps s r => calm (s ++ r) -> Forall (fun kv : key * cv => confl (snd kv)) ps) ps s r).
      intros C. exact (@reps_conf _ (fun kv : key * cv => confl (snd kv)) _ _ _ H C).
    + cbv beta. intros ps s r H C. left. constructor; [|constructor]. constructor. now apply conf_top_fold, H.
  - apply rd_attempt. eapply rd_many1 with (Q := fun v _ _ => is_incl v).
    + intros pre l v n E. pose proof (@w_include D dec (pre ++ l) (length pre)) as W. rewrite E, app_length in W. destruct W as [W _]; [lia|].
      exists (firstn n l), (skipn n l). split; [now rewrite firstn_skipn|]. split; [apply firstn_length_le; lia|].
      unfold include_cv, p_map in E. destruct (p_and _ _ (pre ++ l) (length pre)) as [[m f] k| | |]; try discriminate. injection E as <- <-. now eexists _, _.
    + intros vs s r Hn H _. right. split; [exact Hn|]. clear Hn. induction H; constructor; auto.
  - eapply rd_many0 with (Q := q_conf).
    + apply rd_or; [apply rd_attempt, rd_object_conf|apply rd_array_conf].
    + intros vs s r H C. left. eapply Forall_impl; [|exact (@reps_conf _ confl _ _ _ H C)]. now intros a [Ha _].
Qed.
End Step.
Lemma rd_fuel_conf : forall n, reads (value_fuel dec n) q_conf /\ reads (property_fuel dec n) q_entry.
Proof.
  induction n as [|n [IH1 IH2]].
  - split; intros pre l v n E; discriminate.
  - split; [apply (rd_value_conf IH1 IH2)|apply (rd_property_conf IH1 IH2)].
Qed.
Lemma calm_conf : forall t vs n, calm t -> hocon_p dec t 0 = Success vs n -> Forall (@conf D) vs \/ vs <> [] /\ Forall is_incl vs.
Proof.
  intros t vs n C E. unfold hocon_p, hocon_fuel in E. destruct (rd_fuel_conf (S (length t))) as [H1 H2].
  assert (R : reads (p_skip_right (p_skip_left space_or_comment (config_step (value_fuel dec (S (length t))) (property_fuel dec (S (length t))))) p_end)
    (fun vs s r => calm (s ++ r) -> Forall (@conf D) vs \/ vs <> [] /\ Forall is_incl vs)).
  { eapply rd_skip_right; [eapply rd_skip_left; [eapply rd_any, rd_soc|apply (rd_config_conf H1 H2)|]|eapply rd_any, rd_end|].
    - cbv beta. intros _ ws s u r _ Hd. refine (_ : (fun vs s r => calm (s ++ r) -> Forall (@conf D) vs \/ vs <> [] /\ Forall is_incl vs) ws (s ++ u) r).
      intros K. rewrite <- app_assoc in K. apply calm_suffix in K. auto.
    - cbv beta. intros ws _ s u r Hd _ K. rewrite <- app_assoc in K. auto. }
  destruct (R [] t vs n E) as (s & r & -> & L & Hd). now apply Hd.
Qed.
End Conf.
