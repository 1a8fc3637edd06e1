(** What the hocon parsers return: they never run forever, and every value they return is well formed. *)
From Verif Require Import Base Core Comb Closure RepFacts LitFacts Hoare Weak Agree Text Json JsonSpec JsonFacts Hocon HoconFacts.
Set Implicit Arguments.
Local Open Scope string_scope.
Local Open Scope nat_scope.
Local Open Scope list_scope.

(** ** The panic-free part *)
Definition any {A} : A -> list N -> Prop := fun _ _ => True.
Definition some {A} : A -> list N -> Prop := fun _ s => s <> [].
Lemma some_app_l : forall A (v : A) s t, s <> [] -> some v (s ++ t).
Proof. intros A v s t H E. apply app_eq_nil in E. tauto. Qed.
Lemma some_app_r : forall A (v : A) s t, t <> [] -> some v (s ++ t).
Proof. intros A v s t H E. apply app_eq_nil in E. tauto. Qed.
Lemma h_any : forall A (p : parser N A) Q, hoare p Q -> hoare p any.
Proof. intros A p Q H. eapply h_weaken; [exact H|]. intros. exact I. Qed.
Lemma items_some : forall A (vs : list A) s, Items some vs s -> vs <> [] -> s <> [].
Proof. intros A vs s H Hn. destruct H as [|v s vs t H _]; [congruence|]. intros E. apply app_eq_nil in E. now apply H. Qed.

Lemma h_take_till0 : forall f, hoare (@p_take_till0 N f) any.
Proof.
  intros f inp off Ho. assert (B : built (@no_leaf N) false false (@p_take_till0 N f)) by constructor.
  pose proof (@built_bounded N (@no_leaf N) false false) as Hb. pose proof (@built_no_panic N (@no_leaf N) false) as Hp.
  unfold p_take_till0. rewrite ps_input_ok by exact Ho. pose proof (tt_loop_inv f (skipn off inp) 0) as L.
  destruct (tt_loop f (skipn off inp) 0) as [i b] eqn:E. specialize (L i b eq_refl). destruct b.
  - rewrite slice_with_len_ok; [|rewrite skipn_len in L; lia]. split; [rewrite skipn_len in L; lia|exact I].
  - split; [rewrite skipn_len; lia|exact I].
Qed.
Lemma h_hspace : hoare hspace any.
Proof.
  unfold hspace. eapply h_collect with (Q := any); [|intros; exact I]. eapply h_many0; [apply h_elm_ref_of with (R := some); intros; discriminate|auto|]. intros. exact I.
Qed.
Lemma h_comment : hoare comment any.
Proof.
  unfold comment. eapply h_collect with (Q := any); [|intros; exact I]. eapply h_and with (P := any) (Q := any); [apply h_hspace| |intros; exact I].
  eapply h_many1 with (Q := some); [|auto|intros; exact I].
  eapply h_and with (P := some) (Q := any); [|apply h_take_till0|intros a b s t Hs _; now apply some_app_l].
  unfold comment_head. apply h_or; [apply h_attempt|]; (eapply h_collect with (Q := some); [|auto]).
  - apply h_seqN. discriminate.
  - apply h_elm_ref. discriminate.
Qed.
Lemma h_soc : hoare space_or_comment any.
Proof.
  unfold space_or_comment. eapply h_discard with (Q := any); [|intros; exact I]. apply h_or; [apply h_attempt, h_comment|apply h_hspace].
Qed.
Lemma h_spaced : forall A (p : parser N A) (Q : A -> list N -> Prop), hoare p Q ->
  hoare (spaced p) (fun v s => exists a t b, s = a ++ t ++ b /\ Q v t).
Proof.
  intros A p Q H. unfold spaced. eapply h_surround; [apply h_soc|exact H|apply h_soc|].
  intros a b c s t u _ Hb _. now exists s, t, u.
Qed.
Lemma h_spaced_some : forall A (p : parser N A), hoare p some -> hoare (spaced p) some.
Proof.
  intros A p H. eapply h_weaken; [apply h_spaced, H|]. intros v s (a & t & b & -> & Ht). apply some_app_r. exact (some_app_l v b Ht).
Qed.
Lemma w_spaced : forall A (p : parser N A) (Q R : A -> list N -> Prop), whoare p Q ->
  (forall v a t b, Q v t -> R v (a ++ t ++ b)) -> whoare (spaced p) R.
Proof.
  intros A p Q R H HR. unfold spaced. eapply w_surround; [apply w_hoare, h_soc|exact H|apply w_hoare, h_soc|].
  intros a b c s t u _ Hb _. now apply HR.
Qed.
(** Letters, '-' and '_'. *)
Definition path_char (x : N) : Prop := is_ascii_alpha x = true \/ In x (bs "-_").
Lemma h_path_element : hoare path_element (fun v s => v = s /\ s <> [] /\ Forall path_char s).
Proof.
  unfold path_element. eapply h_collect with (Q := fun _ s => s <> [] /\ Forall path_char s); [|auto].
  eapply h_many1 with (Q := fun v s => s = [v] /\ path_char v).
  - apply h_or; [apply h_elm_pred|apply h_elm_of]; intros x Hx; (split; [reflexivity|]); [now left|now right].
  - intros v s [-> _]. discriminate.
  - intros vs s H Hn. split.
    + destruct H as [|v s vs t [-> _] _]; [congruence|discriminate].
    + clear Hn. induction H as [|v s vs t [-> Hv] _ IH]; [constructor|]. cbn. now constructor.
Qed.
(** Letters, '-', '_' and '.', starting with a letter, '-' or '_'. *)
Definition path_text (s : list N) : Prop := match s with x :: _ => path_char x | [] => False end /\ Forall (fun x => path_char x \/ x = 46%N) s.
Lemma h_path_raw : hoare (p_collect (p_many1_sep path_element (p_elm (chr ".")))) (fun v s => v = s /\ path_text s).
Proof.
  eapply h_collect with (Q := fun _ s => path_text s); [|auto].
  eapply h_many1_sep with (S := fun _ s => s = [46%N]); [apply h_path_element|apply h_elm; reflexivity| |].
  - intros v s w t (_ & H & _) _ E. apply app_eq_nil in E. tauto.
  - intros v s vs t (_ & Hn & H) HT. unfold path_text. split.
    + destruct s as [|x s]; [congruence|]. cbn. now inv H.
    + apply Forall_app. split; [eapply Forall_impl; [|exact H]; tauto|].
      clear - HT. induction HT as [| |w u v s vs t HS (-> & _ & HQ) HT IH]; [constructor| |].
      * subst. constructor; [now right|constructor].
      * apply Forall_app. split; [subst; constructor; [now right|constructor]|]. apply Forall_app. split; [|exact IH].
        eapply Forall_impl; [|exact HQ]. tauto.
Qed.
Lemma h_path : hoare path_p (fun v s => v = s /\ path_text s).
Proof.
  unfold path_p. eapply h_map_res; [apply h_path_raw|]. intros v s b [-> H] E. unfold from_utf8 in E.
  destruct (utf8_valid s); [|discriminate]. inv E. now split.
Qed.
Lemma path_text_some : forall s, path_text s -> s <> [].
Proof. intros s [H _] ->. exact H. Qed.

Lemma h_string_surround : hoare string_surround some.
Proof.
  unfold string_surround. eapply h_many1 with (Q := some); [|auto|intros vs s H Hn; now apply (items_some H)]. apply h_or.
  - apply h_attempt. unfold hchar_string. eapply h_map_res with (Q := some); [|auto].
    eapply h_many1 with (Q := some); [|auto|intros vs s H Hn; now apply (items_some H)].
    eapply h_map with (Q := some); [|auto]. apply h_or.
    + apply h_none_ref. intros x _. discriminate.
    + unfold escape_sequence. eapply h_skip_left with (P := some); [apply h_elm_ref; discriminate|apply h_special|].
      intros a b s t H _. now apply some_app_l.
  - eapply h_weaken; [apply h_utf16_string|]. intros v s (hs & H1 & _ & -> & _). destruct hs as [|h hs]; [congruence|]. discriminate.
Qed.
Lemma h_quotes : hoare double_quote some /\ hoare single_quote some.
Proof. split; apply h_spaced_some, h_elm_ref; discriminate. Qed.
Lemma h_hstring : hoare hstring some.
Proof.
  unfold hstring. eapply h_map with (Q := some); [|auto]. destruct h_quotes as [H1 H2].
  repeat apply h_or; [apply h_attempt|apply h_attempt|apply h_string_surround];
    (eapply h_surround; [eassumption|apply h_string_surround|eassumption|]); intros a b c s t u Hs _ _; now apply some_app_l.
Qed.
Lemma h_key : hoare key_p some.
Proof.
  unfold key_p. apply h_spaced_some, h_or; [|apply h_hstring]. apply h_attempt. eapply h_weaken; [apply h_path|].
  intros v s [_ H]. now apply path_text_some.
Qed.
(** The path check of a lookup returns or panics; it does not run forever. *)
Lemma check_path_returns : forall path, check_path path <> RDiverge.
Proof.
  intros path E. unfold check_path in E. pose proof (h_key path (Nat.le_0_l _)) as H. now destruct (key_p path 0).
Qed.

(** ** Values *)
Section Values.
Variable D : Type.
Variable dec : list N -> option D.
Notation cv := (cv D).
Notation key := (list N).

(** An unsigned numeral: it starts with a digit. *)
Definition unsigned (s : list N) : Prop := match s with x :: _ => digit x | [] => False end.
(** The shape of a loaded value: numbers come from unsigned numerals, the keys of objects are distinct, the file name of an
    include stands between quotes. *)
Inductive clean : cv -> Prop :=
| cl_null : clean CNull
| cl_bool : forall b, clean (CBool b)
| cl_str : forall s, clean (CStr s)
| cl_num : forall s d, unsigned s -> dec s = Some d -> clean (CNum d)
| cl_dur : forall s d u, unsigned s -> dec s = Some d -> clean (CDur d u)
| cl_arr : forall l, Forall clean l -> clean (CArr l)
| cl_obj : forall m, NoDup (keys m) -> Forall (fun kv => clean (snd kv)) m -> clean (CObj m)
| cl_enum : forall prev l, (forall p, prev = Some p -> clean p) -> Forall clean l -> clean (CEnum prev l)
| cl_ref : forall prev path missing, (forall p, prev = Some p -> clean p) -> path_text path -> clean (CRef prev path missing)
| cl_incl : forall method path, path_text path -> clean (CIncl method ([34]%N ++ path ++ [34]%N))
| cl_link : forall p v, clean p -> clean v -> clean (CLink p v).

Lemma clean_push : forall v c, clean v -> clean c -> clean (push v c).
Proof.
  intros v c Hv Hc. unfold push. destruct Hc; constructor; try exact Hv; try (now econstructor; eauto).
  constructor; [|assumption]. intros q E. now inv E.
Qed.
Lemma clean_set : forall (m : list (key * cv)) k v, Forall (fun kv => clean (snd kv)) m -> clean v ->
  Forall (fun kv => clean (snd kv)) (hm_set m k v).
Proof.
  intros m k v H Hv. induction H as [|[k' v'] m Hx H IH]; cbn; [now constructor|].
  destruct (list_eq_dec N.eq_dec k k'); now constructor.
Qed.
Lemma nodup_set : forall (m : list (key * cv)) k v, NoDup (keys m) -> NoDup (keys (hm_set m k v)).
Proof.
  intros m k v H. destruct (hm_get m k) as [x|] eqn:E.
  - now rewrite (set_keys_old _ _ _ E).
  - rewrite (set_new _ _ _ E). unfold keys. rewrite map_app. apply NoDup_app_intro; [exact H|repeat constructor; intros []|].
    intros y Hy [<-|[]]. apply get_none in E. contradiction.
Qed.
Lemma clean_get : forall (m : list (key * cv)) k v, Forall (fun kv => clean (snd kv)) m -> hm_get m k = Some v -> clean v.
Proof. intros m k v H E. apply get_in in E. now apply (proj1 (Forall_forall _ _) H) in E. Qed.

Lemma clean_merge : forall r l, clean r -> clean l -> clean (merge_with l r).
Proof.
  intros r. induction r as [|b|s|d|d u|lr Hlr|m Hm|o lr Ho Hlr|o path ms Ho|me f|p v Hp Hv] using cv_ind2; intros l Hr Hl;
    unfold merge_with;
    try solve [induction Hl as [|b2|s2|s2 d2 U2 E2|s2 d2 u2 U2 E2|l2 L2|m2 N2 M2|o2 l2 O2 L2|o2 p2 ms2 O2 P2|me2 p2 P2|p2 v2 P2 IHp V2 IHv] using clean_ind;
      cbn; try (now econstructor; eauto); try (apply clean_push; [now constructor|exact IHv])].
  - induction Hl as [|b2|s2|s2 d2 U2 E2|s2 d2 u2 U2 E2|l2 L2|m2 N2 M2|o2 l2 O2 L2|o2 p2 ms2 O2 P2|me2 p2 P2|p2 v2 P2 IHp V2 IHv] using clean_ind;
      try (now econstructor; eauto).
    + cbn. inv Hr. constructor. apply Forall_app. now split.
    + apply clean_push; [now constructor|exact IHv].
  - induction Hl as [|b2|s2|s2 d2 U2 E2|s2 d2 u2 U2 E2|l2 L2|m2 N2 M2|o2 l2 O2 L2|o2 p2 ms2 O2 P2|me2 p2 P2|p2 v2 P2 IHp V2 IHv] using clean_ind;
      try (now econstructor; eauto).
    + change (clean (merge_with (CObj m2) (CObj m))). rewrite merge_obj. inv Hr. constructor.
      * now apply merge_maps_nodup.
      * clear H0. unfold merge_maps. revert m2 N2 M2. induction m as [|[k x] m IH]; intros m2 N2 M2; [exact M2|].
        inv Hm. inv H1. cbn [fold_left fst snd]. apply IH; [assumption|assumption| |].
        { destruct (hm_get m2 k); now apply nodup_set. }
        { destruct (hm_get m2 k) as [y|] eqn:E; apply clean_set; try assumption. apply H2; [assumption|]. now apply (clean_get _ M2 E). }
    + apply clean_push; [now constructor|exact IHv].
Qed.

(** The value and the text of a value parser. *)
Definition okv : cv -> list N -> Prop := fun v s => clean v /\ s <> [].
Definition okp : key * cv -> list N -> Prop := fun kv s => clean (snd kv) /\ s <> [].

Lemma h_hinteger : hoare hinteger (fun v s => v = s /\ unsigned s).
Proof.
  unfold hinteger. eapply h_map_res with (Q := fun v s => v = s /\ unsigned s).
  - apply h_or; (eapply h_collect with (Q := fun _ s => unsigned s); [|auto]).
    + eapply h_and with (P := fun v s => s = [v] /\ digit v) (Q := any).
      * unfold p_elm_digit_1_9_ref, p_filter_not. eapply h_filter with (Q := fun v s => s = [v] /\ digit v); [|auto].
        unfold p_elm_digit_ref. apply h_elm_pred_ref. intros x Hx. split; [reflexivity|now apply is_digit_iff].
      * eapply h_any. apply h_digits0.
      * intros a b s t [-> H] _. exact H.
    + apply h_elm_ref. cbn. unfold digit. lia.
  - intros v s b [-> H] E. unfold from_utf8 in E. destruct (utf8_valid s); [|discriminate]. inv E. now split.
Qed.
Lemma h_utf8_any : forall (p : parser N (list N)), hoare p any -> hoare (p_map_res p from_utf8) any.
Proof. intros p H. eapply h_map_res; [exact H|]. intros. exact I. Qed.
Lemma h_hfrac : hoare hfrac any.
Proof.
  apply h_utf8_any. eapply h_collect with (Q := any); [|intros; exact I]. eapply h_and with (P := any) (Q := any); [|eapply h_any, h_digits1|intros; exact I].
  apply h_elm_ref. exact I.
Qed.
Lemma h_hexp : hoare hexp any.
Proof.
  apply h_utf8_any. eapply h_collect with (Q := any); [|intros; exact I]. eapply h_and with (P := any) (Q := any); [|eapply h_any, h_digits1|intros; exact I].
  eapply h_and with (P := any) (Q := any); [apply h_elm_of; intros; exact I| |intros; exact I].
  eapply h_opt with (P := any); [apply h_elm_of; intros; exact I|intros; exact I|exact I].
Qed.
Lemma w_number_value : whoare (number_value dec) (fun d s => s <> [] /\ exists n, unsigned n /\ dec n = Some d).
Proof.
  unfold number_value. eapply w_map_panic with (Q := fun x s => s <> [] /\ unsigned (snd (fst (fst x)))).
  - unfold hnumber. eapply w_spaced with (Q := fun x s => s <> [] /\ unsigned (snd (fst (fst x)))).
    + apply w_hoare. eapply h_and with (P := fun x s => s <> [] /\ unsigned (snd (fst x))) (Q := any).
      * eapply h_and with (P := fun x s => s <> [] /\ unsigned (snd x)) (Q := any).
        { eapply h_and with (P := any) (Q := fun v s => v = s /\ unsigned s); [|apply h_hinteger|].
          - eapply h_opt with (P := any); [apply h_elm_ref; exact I|intros; exact I|exact I].
          - cbn. intros a b s t _ [-> H]. split; [|exact H]. apply (some_app_r a). intros ->. exact H. }
        { eapply h_opt with (P := any); [apply h_hfrac|intros; exact I|exact I]. }
        { cbn. intros a b s t [H1 H2] _. split; [now apply (some_app_l a)|exact H2]. }
      * eapply h_opt with (P := any); [apply h_hexp|intros; exact I|exact I].
      * cbn. intros a b s t [H1 H2] _. split; [now apply (some_app_l a)|exact H2].
    + cbv beta. intros v a t b [H1 H2]. split; [|exact H2]. apply (some_app_r v). exact (some_app_l v b H1).
  - intros [[[sg i] f] e] s d [H1 H2] E. split; [exact H1|]. cbn in H2.
    assert (U : forall x, unsigned (i ++ x)) by (intros x; destruct i; [contradiction|exact H2]).
    unfold number_of in E. destruct sg, f as [f|], e as [e|]; try discriminate E; eexists; (split; [|exact E]); (exact H2 || apply U).
Qed.
Lemma w_duration : whoare (duration_value dec) okv.
Proof.
  unfold duration_value. eapply w_map with (Q := fun nu s => s <> [] /\ exists n, unsigned n /\ dec n = Some (fst nu)).
  - unfold duration. eapply w_and with (Q := any); [apply w_number_value| |].
    + apply w_hoare. unfold time_unit_p, unit_ns, unit_us, unit_ms, unit_s, unit_m, unit_h, unit_d, unit_of, seq_a.
      repeat apply h_or; repeat apply h_attempt; (eapply h_map with (Q := any); [|intros; exact I]); repeat apply h_or; try apply h_attempt; apply h_seqN; exact I.
    + intros a b s t [H1 H2] _. split; [now apply (some_app_l a)|exact H2].
  - intros [d u] s [H1 (n & H2 & H3)]. split; [|exact H1]. econstructor; eassumption.
Qed.
Lemma w_string_cv : whoare (@string_cv D) okv.
Proof. apply w_hoare. unfold string_cv. eapply h_map; [apply h_hstring|]. intros v s H. split; [constructor|exact H]. Qed.
Lemma w_simple : whoare (simple_cv dec) okv.
Proof.
  unfold simple_cv. eapply w_spaced with (Q := okv).
  - assert (S : forall t (v : cv), t <> [] -> clean v -> whoare (p_attempt (p_map (p_seqN t) (fun _ => v))) okv).
    { intros t v Ht Hv. apply w_hoare, h_attempt. eapply h_map with (Q := fun _ s => s = t); [apply h_seqN; reflexivity|].
      intros _ s ->. now split. }
    repeat apply w_or; try (apply S; [discriminate|constructor]).
    + apply w_attempt, w_duration.
    + apply w_attempt. eapply w_map; [apply w_number_value|]. cbv beta. intros d s [H1 (n & H2 & H3)]. split; [econstructor; eassumption|exact H1].
    + apply w_string_cv.
  - intros v a t b [H1 H2]. split; [exact H1|]. apply (some_app_r v). exact (some_app_l v b H2).
Qed.
Lemma w_reference : whoare (@reference_cv D) okv.
Proof.
  apply w_hoare. unfold reference_cv. eapply h_map with (Q := fun mn s => s <> [] /\ path_text (snd mn)).
  - unfold reference. eapply h_surround with (L := some) (R := any) (P := fun mn _ => path_text (snd mn)).
    + apply h_spaced_some, h_seqN. discriminate.
    + eapply h_and with (P := any) (Q := fun v s => path_text v).
      * eapply h_map with (Q := any); [|intros; exact I]. eapply h_opt with (P := any); [apply h_elm_ref; exact I|intros; exact I|exact I].
      * eapply h_map_res; [apply h_path_raw|]. intros v s b [-> H] E. unfold from_utf8 in E. destruct (utf8_valid s); [|discriminate]. now inv E.
      * intros a b s t _ H. exact H.
    + eapply h_any. apply h_spaced_some, h_seqN. discriminate.
    + intros a b c s t u H1 H2 _. split; [now apply (some_app_l a)|exact H2].
  - intros [m p] s [H1 H2]. split; [|exact H1]. constructor; [discriminate|exact H2].
Qed.
Lemma items_okv : forall vs s, Items okv vs s -> Forall clean vs.
Proof. intros vs s H. eapply items_forall; [exact H|]. now intros v t [Hv _]. Qed.
Lemma items_okv_some : forall vs s, Items okv vs s -> vs <> [] -> s <> [].
Proof. intros vs s H Hn. destruct H as [|v s vs t [_ H] _]; [congruence|]. exact (some_app_l v t H). Qed.
Lemma w_enumeration : whoare (@enumeration_cv D) okv.
Proof.
  unfold enumeration_cv. eapply w_map with (Q := fun vs s => Forall clean vs /\ s <> []).
  - eapply w_many1 with (Q := okv).
    + apply w_or; [apply w_attempt, w_string_cv|apply w_reference].
    + now intros v s [_ H].
    + intros vs s H Hn. split; [now apply (items_okv H)|now apply (items_okv_some H)].
  - intros vs s [H1 H2]. split; [|exact H2]. constructor; [discriminate|exact H1].
Qed.
Lemma w_include : whoare (@include_cv D) okv.
Proof.
  apply w_hoare. unfold include_cv. eapply h_map with (Q := fun mp s => s <> [] /\ path_text (snd mp)).
  - eapply h_and with (P := some) (Q := fun v s => path_text v).
    + eapply h_skip_left with (P := some) (Q := any).
      * eapply h_skip_left with (P := some) (Q := any); [apply h_seqN; discriminate|apply h_elm; exact I|].
        intros a b s t H _. exact (some_app_l b t H).
      * apply h_utf8_any. eapply h_collect with (Q := any); [|intros; exact I]. apply h_or; apply h_seqN; exact I.
      * intros a b s t H _. exact (some_app_l b t H).
    + eapply h_surround with (L := any) (R := any); [apply h_seqN; exact I|apply h_path|apply h_seqN; exact I|].
      intros a b c s t u _ [-> H] _. exact H.
    + intros a b s t H1 H2. split; [exact (some_app_l a t H1)|exact H2].
  - intros [m p] s [H1 H2]. split; [|exact H1]. now constructor.
Qed.
Lemma obj_fold_clean : forall l m, Forall (fun kv => clean (snd kv)) l -> NoDup (keys m) -> Forall (fun kv => clean (snd kv)) m ->
  NoDup (keys (fold_left (@obj_insert D) l m)) /\ Forall (fun kv => clean (snd kv)) (fold_left (@obj_insert D) l m).
Proof.
  intros l m H. revert m. induction H as [|[k v] l Hv H IH]; intros m N M; [now split|]. cbn [fold_left]. cbn in Hv.
  apply IH; unfold obj_insert; cbn [fst snd]; destruct (hm_get m k) as [x|] eqn:E; try (now apply nodup_set); apply clean_set; try assumption.
  apply clean_push; [now apply (clean_get _ M E)|exact Hv].
Qed.
Lemma top_fold_clean : forall l m, Forall (fun kv => clean (snd kv)) l -> NoDup (keys m) -> Forall (fun kv => clean (snd kv)) m ->
  NoDup (keys (fold_left (@top_insert D) l m)) /\ Forall (fun kv => clean (snd kv)) (fold_left (@top_insert D) l m).
Proof.
  intros l m H. revert m. induction H as [|[k v] l Hv H IH]; intros m N M; [now split|]. cbn [fold_left]. cbn in Hv.
  apply IH; unfold top_insert; cbn [fst snd]; destruct (hm_get m k) as [x|] eqn:E; try (now apply nodup_set); apply clean_set; try assumption.
  apply clean_merge; [exact Hv|now apply (clean_get _ M E)].
Qed.

Lemma h_comma : hoare comma some.
Proof. apply h_spaced_some, h_elm_ref. discriminate. Qed.
Lemma w_array : forall value, whoare value okv -> whoare (@array_cv D value) okv.
Proof.
  intros value H. unfold array_cv. eapply w_map with (Q := fun vs s => Forall clean vs /\ s <> []).
  - eapply w_surround with (L := some) (R := any) (P := fun vs _ => Forall clean vs).
    + apply w_hoare, h_spaced_some, h_elm_ref. discriminate.
    + eapply w_many0_sep with (Q := okv) (S := some); [apply w_lazy, H|apply w_hoare, h_comma| |constructor|].
      * intros v s w t [_ Hs] _. exact (some_app_r v t Hs).
      * intros v s vs t [Hv _] HT. constructor; [exact Hv|]. clear - HT. induction HT as [| |w u v s vs t HS [Hv _] HT IH]; constructor; assumption.
    + apply w_hoare. eapply h_any. apply h_spaced_some, h_elm_ref. discriminate.
    + intros a b c s t u H1 H2 _. split; [exact H2|exact (some_app_l a _ H1)].
  - intros vs s [H1 H2]. split; [now constructor|exact H2].
Qed.
Lemma w_object : forall prop, whoare prop okp -> whoare (@object_cv D prop) okv.
Proof.
  intros prop H. unfold object_cv. eapply w_map with (Q := fun ps s => Forall (fun kv => clean (snd kv)) ps /\ s <> []).
  - eapply w_surround with (L := some) (R := any) (P := fun ps _ => Forall (fun kv => clean (snd kv)) ps).
    + apply w_hoare, h_spaced_some, h_elm_ref. discriminate.
    + eapply w_many0_sep with (Q := okp) (S := any); [apply w_lazy, H| | |constructor|].
      * apply w_hoare. eapply h_opt with (P := any); [eapply h_any, h_comma|intros; exact I|exact I].
      * intros v s w t [_ Hs] _. exact (some_app_r v t Hs).
      * intros v s vs t [Hv _] HT. constructor; [exact Hv|]. clear - HT. induction HT as [| |w u v s vs t HS [Hv _] HT IH]; constructor; assumption.
    + apply w_hoare. eapply h_any. apply h_spaced_some, h_elm_ref. discriminate.
    + intros a b c s t u H1 H2 _. split; [exact H2|exact (some_app_l a _ H1)].
  - intros ps s [H1 H2]. split; [|exact H2]. destruct (@obj_fold_clean ps [] H1) as [K1 K2]; [constructor|constructor|]. now constructor.
Qed.
Lemma w_property : forall value prop, whoare value okv -> whoare prop okp -> whoare (@property_step D value prop) okp.
Proof.
  intros value prop Hv Hp. unfold property_step. eapply w_and with (P := some) (Q := okv); [apply w_hoare, h_key| |].
  - repeat apply w_or; try apply w_attempt.
    + eapply w_skip_left with (P := any) (Q := okv); [| apply w_lazy, Hv|].
      * apply w_hoare. unfold kv. eapply h_discard with (Q := any); [apply h_elm_ref_of; intros; exact I|intros; exact I].
      * intros a b s t _ [H1 H2]. split; [exact H1|exact (some_app_r a s H2)].
    + now apply w_object.
    + now apply w_array.
  - intros a b s t H1 [H2 _]. split; [exact H2|exact (some_app_l a t H1)].
Qed.
Lemma w_value : forall value prop, whoare value okv -> whoare prop okp -> whoare (value_step dec value prop) okv.
Proof.
  intros value prop Hv Hp. unfold value_step. eapply w_spaced with (Q := okv).
  - repeat apply w_or; try apply w_attempt; [now apply w_array|now apply w_object|apply w_reference|apply w_simple|apply w_enumeration].
  - intros v a t b [H1 H2]. split; [exact H1|]. apply (some_app_r v). exact (some_app_l v b H2).
Qed.
Lemma w_config : forall value prop, whoare value okv -> whoare prop okp -> whoare (@config_step D value prop) (fun vs _ => Forall clean vs).
Proof.
  intros value prop Hv Hp. unfold config_step. repeat apply w_or.
  - apply w_attempt. eapply w_map with (Q := fun ps _ => Forall (fun kv => clean (snd kv)) ps).
    + eapply w_many1 with (Q := okp); [now apply w_property|now intros v s [_ H]|]. intros vs s H _.
      eapply items_forall; [exact H|]. now intros v t [Hc _].
    + intros ps s H. destruct (@top_fold_clean ps [] H) as [K1 K2]; [constructor|constructor|]. constructor; [now constructor|constructor].
  - apply w_attempt. eapply w_many1 with (Q := okv); [apply w_include|now intros v s [_ H]|]. intros vs s H _. now apply (items_okv H).
  - eapply w_many0 with (Q := okv); [|now intros v s [_ H]|intros vs s H; now apply (items_okv H)].
    apply w_or; [apply w_attempt; now apply w_object|now apply w_array].
Qed.

(** The recursion cut off by a failure instead of divergence. *)
Fixpoint value_safe (n : nat) : parser N cv :=
  match n with 0 => p_failed Incomplete false | S n => value_step dec (value_safe n) (property_safe n) end
with property_safe (n : nat) : parser N (key * cv) :=
  match n with 0 => p_failed Incomplete false | S n => property_step (value_safe n) (property_safe n) end.
Lemma w_safe : forall n, whoare (value_safe n) okv /\ whoare (property_safe n) okp.
Proof.
  induction n as [|n [IH1 IH2]]; [split; apply w_hoare, h_failed|]. split; [now apply w_value|now apply w_property].
Qed.
(** Outside the input the parsers panic. *)
Definition oob {A} (p : parser N A) : Prop := forall inp off, length inp < off -> p inp off = Panic.
Lemma ps_input_oob : forall (inp : list N) off, length inp < off -> ps_input inp off = None.
Proof. intros inp off H. destruct (ps_input inp off) eqn:E; [|reflexivity]. apply ps_input_some in E. lia. Qed.
Lemma oob_soc : oob space_or_comment.
Proof.
  intros inp off H. assert (S : hspace inp off = Panic).
  { unfold hspace, p_collect, p_many0, p_repeat, p_repeat_sep, repeat_sep_fuel, p_elm_ref_of. now rewrite ps_input_oob. }
  unfold space_or_comment, p_discard, p_or, p_attempt, comment, p_collect at 1, p_and. now rewrite S.
Qed.
Lemma consumes_spaced : forall A (p : parser N A), hoare p some -> consumes (spaced p).
Proof.
  intros A p H. eapply hoare_consumes; [apply h_spaced_some, H|auto|]. intros inp off Ho v n E.
  unfold spaced, p_surround, p_skip_left in E. now rewrite oob_soc in E.
Qed.
Lemma consumes_key : consumes key_p.
Proof.
  eapply hoare_consumes; [apply h_key|auto|]. intros inp off Ho v n E.
  unfold key_p, spaced, p_surround, p_skip_left in E. now rewrite oob_soc in E.
Qed.
Lemma ag_spaced : forall A n (p q : parser N A), agree n p q -> agree n (spaced p) (spaced q).
Proof. intros A n p q H. unfold spaced. apply ag_surround; [apply ag_refl|exact H|apply ag_refl]. Qed.
Lemma ag_array : forall n p q, agree n p q -> agree (S n) (@array_cv D p) (array_cv q).
Proof.
  intros n p q H. unfold array_cv. apply ag_map, ag_surround_S; [apply consumes_spaced, h_elm_ref; discriminate|].
  apply ag_repeat_sep, ag_lazy, H.
Qed.
Lemma ag_object : forall n p q, agree n p q -> agree (S n) (@object_cv D p) (object_cv q).
Proof.
  intros n p q H. unfold object_cv. apply ag_map, ag_surround_S; [apply consumes_spaced, h_elm_ref; discriminate|].
  apply ag_repeat_sep, ag_lazy, H.
Qed.
Lemma ag_steps : forall n v1 v2 p1 p2, agree n v1 v2 -> agree n p1 p2 ->
  agree (S n) (value_step dec v1 p1) (value_step dec v2 p2) /\ agree (S n) (@property_step D v1 p1) (property_step v2 p2).
Proof.
  intros n v1 v2 p1 p2 Hv Hp. split.
  - unfold value_step. apply ag_spaced. repeat apply ag_or; try apply ag_attempt; try apply ag_refl; [now apply ag_array|now apply ag_object].
  - unfold property_step. apply ag_and_S; [apply consumes_key|]. repeat apply ag_or; try apply ag_attempt.
    + apply ag_skip_left; [apply ag_refl|]. apply ag_lazy, Hv.
    + eapply ag_less; [apply ag_object, Hp|lia].
    + eapply ag_less; [apply ag_array, Hv|lia].
Qed.
Lemma ag_fuel : forall n m, n <= m -> agree n (value_fuel dec m) (value_safe n) /\ agree n (property_fuel dec m) (property_safe n).
Proof.
  induction n as [|n IH]; intros m Hm; [split; intros inp off H; lia|]. destruct m as [|m]; [lia|].
  destruct (IH m ltac:(lia)) as [H1 H2]. exact (ag_steps H1 H2).
Qed.
Lemma ag_config : forall n v1 v2 p1 p2, agree n v1 v2 -> agree n p1 p2 -> agree n (@config_step D v1 p1) (config_step v2 p2).
Proof.
  intros n v1 v2 p1 p2 Hv Hp. unfold config_step. pose proof (ag_steps Hv Hp) as [_ K].
  repeat apply ag_or; try apply ag_attempt; try apply ag_refl.
  - apply ag_map, ag_repeat_sep. eapply ag_less; [exact K|lia].
  - apply ag_repeat_sep. apply ag_or; [apply ag_attempt|]; [eapply ag_less; [apply ag_object, Hp|lia]|eapply ag_less; [apply ag_array, Hv|lia]].
Qed.
(** Fuel one more than the length of the input is enough, and more fuel changes nothing. *)
Lemma hocon_fuel_enough : forall inp off fuel, length inp < fuel -> hocon_fuel dec fuel inp off = hocon_p dec inp off.
Proof.
  intros inp off fuel H. unfold hocon_p, hocon_fuel.
  destruct (@ag_fuel (S (length inp)) fuel H) as [A1 A2]. destruct (@ag_fuel (S (length inp)) (S (length inp)) (le_n _)) as [B1 B2].
  rewrite (ag_skip_right (ag_skip_left (ag_refl space_or_comment) (ag_config A1 A2)) (ag_refl p_end)) by lia.
  now rewrite (ag_skip_right (ag_skip_left (ag_refl space_or_comment) (ag_config B1 B2)) (ag_refl p_end)) by lia.
Qed.
Lemma w_hocon : forall inp, match hocon_p dec inp 0 with
  | Success vs n => n <= length inp /\ Forall clean vs
  | Failure _ _ | Panic => True
  | Diverge => False
  end.
Proof.
  intros inp. unfold hocon_p, hocon_fuel. destruct (@ag_fuel (S (length inp)) (S (length inp)) (le_n _)) as [B1 B2].
  rewrite (ag_skip_right (ag_skip_left (ag_refl space_or_comment) (ag_config B1 B2)) (ag_refl p_end)) by lia.
  destruct (w_safe (S (length inp))) as [W1 W2].
  assert (H : whoare (p_skip_right (p_skip_left space_or_comment (config_step (value_safe (S (length inp))) (property_safe (S (length inp))))) p_end)
    (fun vs _ => Forall clean vs)).
  { eapply w_skip_right with (P := fun vs _ => Forall clean vs) (Q := any).
    - eapply w_skip_left; [apply w_hoare, h_soc|now apply w_config|]. now intros _ b _ t _ H.
    - apply w_hoare, h_end. exact I.
    - now intros a _ s t H _. }
  specialize (H inp 0 (Nat.le_0_l _)). destruct (p_skip_right _ _ inp 0); exact H.
Qed.
End Values.
