(** IPv6 addresses: every text of RFC 4291 except seven groups followed by '::' is accepted by the parser of the uri crate,
    and a model of the parser and printer of the standard library that the crate relies on. *)
From Verif Require Import Base Core Comb Closure RepFacts LitFacts Hoare Runs Text JsonFacts Uri UriSpec UriFacts UriComplete.
Set Implicit Arguments.
Local Open Scope string_scope.
Local Open Scope nat_scope.
Local Open Scope list_scope.

(** ** Bounded repetition *)
Lemma chain_tail_stop : forall I A (p : parser I A) s rest vs, chain p s rest vs ->
  forall c, rej p rest c -> forall pre count n, count + length vs <= n ->
  tail p (p_successful tt) (BIncluded n) (pre ++ s ++ rest) (length pre) count vs (length s).
Proof.
  intros I A p s rest vs H c Hr. induction H as [rest|s t rest v vs H1 Hne H2 IH]; intros pre count n Hn; cbn [List.length] in Hn.
  - destruct (Nat.eq_dec count n) as [->|Hd]; [apply tail_max; cbn; lia|].
    cbn [app]. eapply tail_dangling with (w := tt) (m := 0); [cbn; lia|reflexivity|]. rewrite Nat.add_0_r.
    destruct (Hr pre) as [e E]. now exists e, c.
  - rewrite <- app_assoc, app_length. apply tail_more with (w := tt) (m := 0) (n := length s).
    + cbn. lia.
    + reflexivity.
    + rewrite Nat.add_0_r. apply H1.
    + rewrite Nat.add_0_r. specialize (IH Hr (pre ++ s) (S count) n ltac:(lia)). rewrite app_length, <- app_assoc in IH. exact IH.
Qed.
(** At most [m] times, the next element failing or the limit being reached. *)
Lemma a_upto : forall I A (p : parser I A) n m s rest vs, chain p s rest vs -> n <= length vs <= m -> 1 <= m ->
  (length vs = m \/ exists c, rej p rest c) -> acc (p_many_n_m p n m) s rest vs.
Proof.
  intros I A p n m s rest vs H Hl Hm He pre. unfold p_many_n_m, p_repeat, p_repeat_sep. rewrite repeat_none. unfold repeat_sep_fuel.
  destruct H as [rest|s t rest v vs H1 Hne H3].
  - cbn [List.length] in *. destruct He as [He|[c He]]; [lia|]. cbn [app]. destruct (He pre) as [e ->]. cbn.
    destruct n; [reflexivity|lia].
  - cbn [List.length] in *. rewrite <- app_assoc, H1.
    rewrite (@rep_loop_complete I A unit p (p_successful tt) (BIncluded m) (pre ++ s ++ t ++ rest) (length pre + length s) 1 vs (length t)).
    + cbn [rev app rep_finish rg_start rg_in]. cbn [length]. destruct (Nat.ltb_spec (S (length vs)) n); [lia|]. now rewrite app_length.
    + destruct He as [He|[c He]].
      * pose proof (@chain_tail_max I A p t rest vs H3 (pre ++ s) 1 m ltac:(lia)) as T. rewrite app_length, <- app_assoc in T. exact T.
      * pose proof (@chain_tail_stop I A p t rest vs H3 c He (pre ++ s) 1 m ltac:(lia)) as T. rewrite app_length, <- app_assoc in T. exact T.
    + reflexivity.
    + unfold rep_fuel. cbn [rg_in rg_end bound_count]. lia.
Qed.
(** Too few. *)
Lemma r_upto : forall I A (p : parser I A) n m s rest vs c, chain p s rest vs -> length vs < n -> n <= m -> rej p rest c ->
  rej (p_many_n_m p n m) (s ++ rest) false.
Proof.
  intros I A p n m s rest vs c H Hl Hm He pre. unfold p_many_n_m, p_repeat, p_repeat_sep. rewrite repeat_none. unfold repeat_sep_fuel.
  destruct H as [rest|s t rest v vs H1 Hne H3].
  - cbn [List.length] in *. cbn [app]. destruct (He pre) as [e ->]. cbn [rep_finish rg_start rg_in List.length].
    destruct (Nat.ltb_spec 0 n); [|lia]. rewrite Nat.add_0_r, input_at. unfold failed_with_uncommitted. eauto.
  - cbn [List.length] in *. rewrite <- app_assoc, H1.
    rewrite (@rep_loop_complete I A unit p (p_successful tt) (BIncluded m) (pre ++ s ++ t ++ rest) (length pre + length s) 1 vs (length t)).
    + cbn [rev app rep_finish rg_start rg_in]. cbn [length]. destruct (Nat.ltb_spec (S (length vs)) n); [|lia].
      replace (length pre + (length s + length t)) with (length (pre ++ s ++ t)) by (rewrite !app_length; lia).
      replace (pre ++ s ++ t ++ rest) with ((pre ++ s ++ t) ++ rest) by now rewrite <- !app_assoc.
      rewrite input_at. unfold failed_with_uncommitted. eauto.
    + pose proof (@chain_tail_stop I A p t rest vs H3 c He (pre ++ s) 1 m ltac:(lia)) as T. rewrite app_length, <- app_assoc in T. exact T.
    + reflexivity.
    + unfold rep_fuel. cbn [rg_in rg_end bound_count]. lia.
Qed.
Lemma r_seq2 : forall c d x l, x <> d -> rej (p_seqN [c; d]) (c :: x :: l) true.
Proof.
  intros c d x l H pre. unfold p_seqN, p_seq. rewrite input_at. cbn. rewrite N.eqb_refl.
  destruct (N.eqb_spec d x); [congruence|]. cbn. eauto.
Qed.

(** ** Groups *)
Lemma a_h16 : forall v s rest, group v s -> hd_not is_ascii_hex_digit rest -> acc h16 s rest v.
Proof.
  intros v s rest (H & L & <-) Hr. unfold h16. apply a_name. eapply a_map_res.
  - apply a_to_string; [|now apply hex_ascii]. eapply a_collect. eapply a_upto; [|exact L|lia|right; eexists; now apply r_elm_pred].
    eapply chain_class with (f := is_ascii_hex_digit); [intros; now apply a_elm_pred|]. eapply Forall_impl; [|exact H]. intros x. apply hexdig_iff.
  - unfold parse_hex. destruct s as [|x s]; [cbn in L; lia|].
    rewrite (proj2 (forallb_forall is_ascii_hex_digit (x :: s))).
    + pose proof (hex_value_bound H) as B.
      assert ((16 ^ N.of_nat (length (x :: s)) <= 16 ^ 4)%N) by (apply N.pow_le_mono_r; lia). change (16 ^ 4)%N with 65536%N in *.
      destruct (N.leb_spec (hex_value (x :: s)) 65535); [reflexivity|lia].
    + intros y Hy. apply hexdig_iff. now apply (proj1 (Forall_forall _ _) H).
Qed.
Lemma r_h16 : forall l, hd_not is_ascii_hex_digit l -> rej h16 l false.
Proof.
  intros l H. unfold h16. apply r_name, r_map_res, r_to_string, r_collect.
  apply (@r_upto N N p_elm_hex_digit 1 4 [] l [] false); [constructor|cbn; lia|lia|now apply r_elm_pred].
Qed.

Definition not_colon (l : list N) : Prop := match l with [] => True | x :: _ => x <> chr ":" end.
Lemma group_hd : forall v s, group v s -> exists x t, s = x :: t /\ hexdig x.
Proof. intros v s (H & L & _). destruct s as [|x s]; [cbn in L; lia|]. inv H. eauto. Qed.
Lemma hex_not_colon : forall x, hexdig x -> x <> chr ":".
Proof. intros x H ->. unfold hexdig in H. cbn in H. lia. Qed.
(** h16 - ':' and h16 + ':', the group items. *)
Definition item {A} (p : parser N A) : Prop :=
  (exists f, forall v s rest, group v s -> acc p (s ++ bs ":") rest (f v)) /\
  (forall l, hd_not is_ascii_hex_digit l -> rej p l false) /\
  (forall v s l, group v s -> hd_not is_ascii_hex_digit l -> not_colon l -> rej p (s ++ l) false).
Lemma item_skip : item (p_skip_right h16 (p_elm (chr ":"))).
Proof.
  split; [|split].
  - exists (fun v => v). intros v s rest H. eapply a_skip_right; [apply a_h16; [exact H|reflexivity]|apply a_elm].
  - intros l H. now apply r_skip_right1, r_h16.
  - intros v s l H Hl Hc. eapply r_skip_right2; [apply a_h16; [exact H|exact Hl]|]. apply r_elm. exact Hc.
Qed.
Lemma item_and : item (p_and h16 (p_elm (chr ":"))).
Proof.
  split; [|split].
  - exists (fun v => (v, chr ":")). intros v s rest H. eapply a_and; [apply a_h16; [exact H|reflexivity]|apply a_elm].
  - intros l H. now apply r_and1, r_h16.
  - intros v s l H Hl Hc. eapply r_and2; [apply a_h16; [exact H|exact Hl]|]. apply r_elm. exact Hc.
Qed.
Lemma chain_items : forall A (p : parser N A) vs s, item p -> groups_colon vs s -> forall rest, exists ws, chain p s rest ws /\ length ws = length vs.
Proof.
  intros A p vs s [[f Hf] _] H rest. induction H as [|v s vs t H _ (ws & K & L)]; [exists []; split; [constructor|reflexivity]|].
  exists (f v :: ws). split; [|cbn; lia]. rewrite app_assoc. constructor; [now apply Hf| |exact K].
  destruct (group_hd H) as (x & u & -> & _). discriminate.
Qed.
Lemma chain_groups : forall vs s rest, groups_colon vs s -> chain (p_skip_right h16 (p_elm (chr ":"))) s rest vs.
Proof.
  intros vs s rest H. induction H as [|v s vs t H _ IH]; [constructor|]. rewrite app_assoc. constructor; [| |exact IH].
  - eapply a_skip_right; [apply a_h16; [exact H|reflexivity]|apply a_elm].
  - destruct (group_hd H) as (x & u & -> & _). discriminate.
Qed.

(** ** The last 32 bits *)
(** No failure of the parsers of IPv4 addresses is final. *)
Definition soft {A} (p : parser N A) : Prop := forall inp off e c, p inp off = Failure e c -> c = false.
Lemma soft_pred : forall f, soft (p_elm_pred_ref f).
Proof.
  intros f inp off e c H. unfold p_elm_pred_ref in H. destruct (ps_input inp off) as [[|x l]|]; [now inv H| |discriminate].
  destruct (f x); [discriminate|now inv H].
Qed.
Lemma soft_of : forall f, soft (p_elm_ref_of f).
Proof.
  intros f inp off e c H. unfold p_elm_ref_of in H. destruct (ps_input inp off) as [[|x l]|]; [now inv H| |discriminate].
  destruct (f x); [discriminate|now inv H].
Qed.
Lemma soft_map : forall A B (p : parser N A) (f : A -> B), soft p -> soft (p_map p f).
Proof. intros A B p f H inp off e c E. unfold p_map in E. destruct (p inp off) eqn:K; try discriminate. inv E. eauto. Qed.
Lemma soft_map_res : forall A B E (p : parser N A) (f : A -> B + E), soft p -> soft (p_map_res p f).
Proof.
  intros A B E p f H inp off e c K. unfold p_map_res in K. destruct (p inp off) eqn:K2; try discriminate; [|inv K; eauto].
  destruct (f _); [discriminate|]. destruct (ps_input inp off); now inv K.
Qed.
Lemma soft_name : forall A (p : parser N A) nm, soft p -> soft (p_name p nm).
Proof.
  intros A p nm H inp off e c E. unfold p_name in E. destruct (p inp off) eqn:K; try discriminate. apply H in K. subst.
  destruct (is_custom _); now inv E.
Qed.
Lemma soft_collect : forall A (p : parser N A), soft p -> soft (p_collect p).
Proof.
  intros A p H inp off e c E. unfold p_collect in E. destruct (p inp off) eqn:K; try discriminate; [|inv E; eauto].
  destruct (slice_with_len _ _ _); discriminate.
Qed.
Lemma soft_and : forall A B (p : parser N A) (q : parser N B), soft p -> soft q -> soft (p_and p q).
Proof.
  intros A B p q Hp Hq inp off e c E. unfold p_and in E. destruct (p inp off) eqn:K; try discriminate; [|inv E; eauto].
  destruct (q _ _) eqn:K2; try discriminate. inv E. eauto.
Qed.
Lemma soft_skip_right : forall A B (p : parser N A) (q : parser N B), soft p -> soft q -> soft (p_skip_right p q).
Proof.
  intros A B p q Hp Hq inp off e c E. unfold p_skip_right in E. destruct (p inp off) eqn:K; try discriminate; [|inv E; eauto].
  destruct (q _ _) eqn:K2; try discriminate. inv E. eauto.
Qed.
Lemma soft_or : forall A (p q : parser N A), soft q -> soft p -> soft (p_or p q).
Proof.
  intros A p q Hp Hq inp off e c E. unfold p_or in E. destruct (p inp off) eqn:K; try discriminate.
  apply Hq in K. subst. cbn in E. eapply Hp, E.
Qed.
Lemma soft_attempt : forall A (p : parser N A), soft (p_attempt p).
Proof. intros A p inp off e c E. unfold p_attempt in E. destruct (p inp off) as [| ? []| |]; cbn in E; try discriminate; now inv E. Qed.
Lemma soft_octet : soft dec_octet.
Proof.
  unfold dec_octet. apply soft_name, soft_map_res, soft_map_res, soft_map, soft_collect.
  repeat apply soft_or; try apply soft_attempt. apply soft_collect, soft_map, soft_pred.
Qed.
Lemma soft_ipv4 : soft ip_v4_address.
Proof.
  unfold ip_v4_address. apply soft_name.
  repeat first [apply soft_and|apply soft_skip_right]; first [apply soft_octet|apply soft_map, soft_pred].
Qed.
Lemma r_soft : forall A (p : parser N A) l, soft p -> rej (p_attempt p) l false -> rej p l false.
Proof.
  intros A p l H K pre. destruct (K pre) as [e E]. unfold p_attempt in E.
  destruct (p (pre ++ l) (length pre)) as [|e' c| |] eqn:K2; try discriminate. pose proof (H _ _ _ _ K2). subst c. inv E. eauto.
Qed.
Lemma r_ipv4_plain : forall s rest, Forall (fun x => x <> chr ".") s -> match rest with [] => True | x :: _ => ~ (digit x \/ x = chr ".") end ->
  rej (p_map ip_v4_address Ls32Ipv4) (s ++ rest) false.
Proof.
  intros s rest H Hr. apply r_map. apply r_soft; [apply soft_ipv4|]. apply r_attempt_any. intros pre.
  assert (K : rej (p_attempt (p_map ip_v4_address Ipv4Address)) (s ++ rest) false).
  { apply r_ipv4; [|exact Hr]. intros (a & t & r & Ha & ->). apply Forall_app in H. destruct H as [H _].
    destruct Ha as [a b c d sa sb sc sd _ _ _ _]. apply Forall_app in H. destruct H as [_ H]. apply Forall_inv in H. now apply H. }
  destruct (K pre) as [e E]. unfold p_attempt, p_map in E.
  destruct (ip_v4_address (pre ++ s ++ rest) (length pre)); try discriminate. eauto.
Qed.
Lemma octet_group : forall v s, octet v s -> exists w, group w s.
Proof.
  intros v s H. assert (K : octet_ok s = true) by (apply octet_iff; eauto). destruct H as ((H & Hne & _) & _). exists (hex_value s).
  split; [|split; [|reflexivity]].
  - eapply Forall_impl; [|exact H]. unfold digit, hexdig. lia.
  - destruct s as [|a [|b [|c [|d s]]]]; cbn in *; try congruence; lia.
Qed.
Lemma ipv4_group : forall a s, g_ipv4 a s -> exists w g t, s = g ++ bs "." ++ t /\ group w g.
Proof. intros a s H. destruct H as [a b c d sa sb sc sd Ha _ _ _]. destruct (octet_group Ha) as [w K]. eauto 6. Qed.
Lemma group_no_dot : forall v s, group v s -> Forall (fun x => x <> chr ".") s.
Proof. intros v s (H & _). eapply Forall_impl; [|exact H]. cbv beta. intros x K ->. unfold hexdig in K. cbn in K. lia. Qed.

Lemma a_ls32 : forall us s rest, last32 us s -> hd_not is_ascii_hex_digit rest -> exists b, acc ls32 s rest b /\ ls32_groups b = us.
Proof.
  intros us s rest H Hr. destruct H as [a b s t Ha Hb|a b c d s H].
  - exists (Ls32 a b). split; [|reflexivity]. unfold ls32. apply a_or1, a_attempt. eapply a_map_eq with (v := (a, b)); [|reflexivity].
    rewrite app_assoc. eapply a_and; [eapply a_skip_right; [apply a_h16; [exact Ha|reflexivity]|apply a_elm]|now apply a_h16].
  - exists (Ls32Ipv4 (a, b, c, d)). split; [|reflexivity]. unfold ls32. apply a_or2.
    + eapply r_attempt, r_map, r_and1. destruct (ipv4_group H) as (w & g & t & -> & Hg). rewrite <- app_assoc.
      eapply r_skip_right2; [apply a_h16; [exact Hg|reflexivity]|]. apply r_elm. discriminate.
    + eapply a_map_eq; [|reflexivity]. apply a_ipv4; [exact H|]. destruct rest as [|x r]; [exact I|]. cbn in Hr |- *.
      destruct (dig x) eqn:E; [|reflexivity]. exfalso. enough (is_ascii_hex_digit x = true) by congruence. apply hexdig_iff.
      unfold dig, in_range in E. apply andb_prop in E. destruct E as [E1 E2]. apply N.leb_le in E1, E2. unfold hexdig. lia.
Qed.
(** What may follow an address: the end, or anything but another digit, ':' and '.'. *)
Definition v6_end (l : list N) : Prop :=
  match l with [] => True | x :: _ => is_ascii_hex_digit x = false /\ x <> chr ":" /\ x <> chr "." end.
Lemma end_hex : forall l, v6_end l -> hd_not is_ascii_hex_digit l.
Proof. intros [|x l] H; [exact I|apply H]. Qed.
Lemma end_colon : forall l, v6_end l -> not_colon l.
Proof. intros [|x l] H; [exact I|apply H]. Qed.
Lemma end_dot : forall l, v6_end l -> match l with [] => True | x :: _ => ~ (digit x \/ x = chr ".") end.
Proof.
  intros [|x l] H; [exact I|]. destruct H as (H & _ & K). intros [D|D]; [|contradiction]. enough (is_ascii_hex_digit x = true) by congruence.
  apply hexdig_iff. unfold digit in D. unfold hexdig. lia.
Qed.
(** One group is not enough. *)
Lemma r_ls32_one : forall v s rest, v6_end rest -> group v s -> rej ls32 (s ++ rest) false.
Proof.
  intros v s rest Hend H. unfold ls32. apply r_or.
  - eapply r_attempt, r_map, r_and1. eapply r_skip_right2; [apply a_h16; [exact H|now apply end_hex]|]. apply r_elm. now apply end_colon.
  - apply r_ipv4_plain; [eapply group_no_dot, H|now apply end_dot].
Qed.
Lemma r_ls32_hd : forall l, hd_not is_ascii_hex_digit l -> match l with [] => True | x :: _ => x <> chr "." end -> rej ls32 l false.
Proof.
  intros l H Hd. unfold ls32. apply r_or.
  - eapply r_attempt, r_map, r_and1, r_skip_right1, r_h16, H.
  - apply (@r_ipv4_plain [] l); [constructor|]. destruct l as [|x l]; [exact I|]. intros [K|K]; [|contradiction].
    cbn in H. enough (is_ascii_hex_digit x = true) by congruence. apply hexdig_iff. unfold digit in K. unfold hexdig. lia.
Qed.

(** ** The right-hand part *)
Lemma groups_app : forall us s vs t, groups_colon us s -> groups_colon vs t -> groups_colon (us ++ vs) (s ++ t).
Proof.
  intros us s vs t H K. induction H as [|v s us u H _ IH]; [exact K|]. cbn [app]. rewrite <- !app_assoc. now constructor.
Qed.
Lemma groups_split : forall vs v t, groups_colon (vs ++ [v]) t -> exists u g, t = u ++ g ++ bs ":" /\ groups_colon vs u /\ group v g.
Proof.
  intros vs. induction vs as [|w vs IH]; intros v t H; inv H.
  - match goal with H : groups_colon [] _ |- _ => inv H end. exists []. eexists. split; [reflexivity|]. split; [constructor|assumption].
  - match goal with H : groups_colon (vs ++ _) _ |- _ => destruct (IH _ _ H) as (u & g & -> & K1 & K2) end.
    match goal with H : group w ?x |- _ => exists (x ++ bs ":" ++ u), g end. split; [now rewrite <- !app_assoc|]. split; [now constructor|assumption].
Qed.
(** Empty, ending in a group, or ending in an IPv4 address. *)
Inductive right_shape : list N -> bytes -> Prop :=
| rs_nil : right_shape [] []
| rs_group : forall vs t v s, groups_colon vs t -> group v s -> right_shape (vs ++ [v]) (t ++ s)
| rs_ipv4 : forall vs t a b c d s, groups_colon vs t -> g_ipv4 (a, b, c, d) s -> right_shape (vs ++ [a * 256 + b; c * 256 + d]%N) (t ++ s).
Lemma right_shape_of : forall vs t, right_part vs t -> right_shape vs t.
Proof.
  intros vs t H. destruct H as [vs t H|vs t us s H K].
  - destruct H; now constructor.
  - destruct K as [a b s u Ha Hb|a b c d s K]; [|now constructor].
    change [a; b] with ([a] ++ [b]). rewrite app_assoc. rewrite (app_assoc s), (app_assoc t). constructor; [|exact Hb].
    apply groups_app; [exact H|]. replace (s ++ bs ":") with (s ++ bs ":" ++ []) by now rewrite app_nil_r. constructor; [exact Ha|constructor].
Qed.
Lemma right_last : forall vs t, right_part vs t -> 2 <= length vs ->
  exists us u ws w, vs = us ++ ws /\ t = u ++ w /\ groups_colon us u /\ last32 ws w.
Proof.
  intros vs t H L. destruct H as [vs t H|vs t us s H K]; [|now exists vs, t, us, s].
  destruct H as [|vs t v s H K]; [cbn in L; lia|]. rewrite app_length in L. cbn in L.
  destruct (@exists_last _ vs) as (us & w & ->); [intros ->; cbn in L; lia|].
  apply groups_split in H. destruct H as (u & g & -> & H1 & H2).
  exists us, u, [w; v], (g ++ bs ":" ++ s). rewrite <- !app_assoc. repeat split; try assumption. now constructor.
Qed.

(** With too few groups either the repetition or what follows it fails. *)
Lemma right_low : forall A (p : parser N A) m vs t rest, v6_end rest -> item p -> right_part vs t -> length vs < m + 2 -> 1 <= m ->
  rej (p_count p m) (t ++ rest) false \/
  exists t1 t2 ws, t = t1 ++ t2 /\ acc (p_count p m) t1 (t2 ++ rest) ws /\ rej ls32 (t2 ++ rest) false.
Proof.
  intros A p m vs t rest Hend Hp H L Hm. apply right_shape_of in H. destruct H as [|vs t v s H K|vs t a b c d s H K].
  - left. apply (@r_upto N A p m m [] _ [] false); [constructor|cbn; lia|lia|]. apply Hp. now apply end_hex.
  - rewrite app_length in L. cbn in L. destruct (chain_items Hp H (s ++ rest)) as (ws & W & Wl).
    destruct (Nat.eq_dec (length vs) m) as [E|E].
    + right. exists t, s, ws. split; [reflexivity|]. split; [eapply a_count; [exact W|lia|lia]|]. eapply r_ls32_one; eassumption.
    + left. rewrite <- app_assoc. eapply r_upto; [exact W|lia|lia|]. apply Hp with (v := v); [exact K|now apply end_hex|now apply end_colon].
  - rewrite app_length in L. cbn in L. destruct (chain_items Hp H (s ++ rest)) as (ws & W & Wl). rewrite <- app_assoc.
    left. eapply r_upto; [exact W|lia|lia|]. destruct (ipv4_group K) as (w & g & u & -> & Hg). rewrite <- app_assoc.
    apply Hp with (v := w); [exact Hg|reflexivity|discriminate].
Qed.
Lemma r_right : forall A (p : parser N A) m vs t rest, v6_end rest -> item p -> right_part vs t -> length vs < m + 2 -> 1 <= m ->
  rej (p_and (p_count p m) ls32) (t ++ rest) false.
Proof.
  intros A p m vs t rest Hend Hp H L Hm. destruct (@right_low A p m vs t rest Hend Hp H L Hm) as [K|(t1 & t2 & ws & -> & K1 & K2)]; [now apply r_and1|].
  rewrite <- app_assoc. eapply r_and2; [exact K1|exact K2].
Qed.
Lemma a_right : forall A (p : parser N A) m vs t rest, v6_end rest -> item p -> right_part vs t -> length vs = m + 2 -> 1 <= m ->
  exists v, acc (p_and (p_count p m) ls32) t rest v.
Proof.
  intros A p m vs t rest Hend Hp H L Hm. destruct (right_last H ltac:(lia)) as (us & u & ws & w & -> & -> & H1 & H2).
  destruct (@a_ls32 ws w rest H2 (end_hex _ Hend)) as (b & B & _).
  destruct (chain_items Hp H1 (w ++ rest)) as (xs & X & Xl). rewrite app_length, (last32_length H2) in L.
  eexists. eapply a_and; [eapply a_count; [exact X|lia|lia]|exact B].
Qed.
Lemma r_right_ls32 : forall vs t rest, v6_end rest -> right_part vs t -> length vs < 2 -> rej ls32 (t ++ rest) false.
Proof.
  intros vs t rest Hend H L. apply right_shape_of in H. destruct H as [|vs t v s H K|vs t a b c d s H K].
  - apply r_ls32_hd; [now apply end_hex|]. apply end_dot in Hend. cbn [app]. destruct rest as [|x r]; [exact I|]. intros E. apply Hend. now right.
  - rewrite app_length in L. cbn in L. destruct vs as [|x vs]; [|cbn in L; lia]. inv H. eapply r_ls32_one; eassumption.
  - rewrite app_length in L. cbn in L. lia.
Qed.

(** ** The left-hand part *)
Lemma left_colon : forall vs s, left_part vs s -> vs = [] /\ s = [] \/ vs <> [] /\ groups_colon vs (s ++ bs ":").
Proof.
  intros vs s H. destruct H as [|vs t v s H K]; [now left|]. right. split; [destruct vs; discriminate|]. rewrite <- app_assoc.
  apply groups_app; [exact H|]. replace (s ++ bs ":") with (s ++ bs ":" ++ []) by now rewrite app_nil_r. constructor; [exact K|constructor].
Qed.
(** [groups_sep vs t]: the groups each preceded by ':'. *)
Inductive groups_sep : list N -> bytes -> Prop :=
| gs_nil : groups_sep [] []
| gs_cons : forall v s vs t, group v s -> groups_sep vs t -> groups_sep (v :: vs) (bs ":" ++ s ++ t).
Lemma left_sep : forall vs s, left_part vs s -> vs <> [] -> exists v g us t, vs = v :: us /\ s = g ++ t /\ group v g /\ groups_sep us t.
Proof.
  intros vs s H Hne. destruct H as [|vs t v s H K]; [congruence|]. clear Hne. induction H as [|w g vs t Hg Ht IH].
  - exists v, s, [], []. rewrite app_nil_r. repeat split; try apply K. constructor.
  - destruct IH as (v' & g' & us & t' & E1 & E2 & Hg' & Hs). exists w, g, (v' :: us), (bs ":" ++ g' ++ t').
    rewrite <- !app_assoc, E2. repeat split; try apply Hg; [cbn [app]; now rewrite E1|]. now constructor.
Qed.
Lemma sep_nil : forall t, groups_sep [] t -> t = [].
Proof. intros t H. now inv H. Qed.
Lemma sep_hd : forall vs t rest, groups_sep vs t -> hd_not is_ascii_hex_digit rest -> hd_not is_ascii_hex_digit (t ++ rest).
Proof. intros vs t rest H Hr. destruct H; [exact Hr|reflexivity]. Qed.
Lemma sep_chain : forall vs t rest, groups_sep vs t -> hd_not is_ascii_hex_digit rest -> chain (p_skip_left (p_elm (chr ":")) h16) t rest vs.
Proof.
  intros vs t rest H Hr. induction H as [|v s vs t Hv Ht IH]; [constructor|]. rewrite app_assoc.
  constructor; [|discriminate|exact IH]. eapply a_skip_left; [apply a_elm|]. apply a_h16; [exact Hv|]. eapply sep_hd; eassumption.
Qed.
Lemma sep_cut : forall vs t n, groups_sep vs t -> n <= length vs ->
  exists t1 t2, t = t1 ++ t2 /\ groups_sep (firstn n vs) t1 /\ groups_sep (skipn n vs) t2.
Proof.
  intros vs t n H. revert n. induction H as [|v s vs t Hv Ht IH]; intros n Hn.
  - cbn in Hn. assert (n = 0) as -> by lia. exists [], []. repeat split; constructor.
  - destruct n as [|n]; [exists [], (bs ":" ++ s ++ t); repeat split; now constructor|]. cbn in Hn.
    destruct (IH n ltac:(lia)) as (t1 & t2 & -> & C1 & C2). exists (bs ":" ++ s ++ t1), t2. split; [now rewrite <- !app_assoc|].
    split; [cbn [firstn]; now constructor|exact C2].
Qed.
Lemma left_nil : forall s, left_part [] s -> s = [].
Proof. intros s H. remember [] as vs eqn:E. destruct H as [|vs t v s H K]; [reflexivity|]. destruct vs; discriminate. Qed.
Lemma a_p1_all : forall n vs s rest, left_part vs s -> length vs <= n + 1 -> 1 <= n ->
  acc (ip_v6_address_p1 n) s (bs "::" ++ rest) s.
Proof.
  intros n vs s rest H L Hn. unfold ip_v6_address_p1. destruct vs as [|v0 vs0] eqn:E.
  - apply left_nil in H. subst s. eapply a_collect, a_opt_none, r_map, r_and1, r_h16. reflexivity.
  - destruct (left_sep H ltac:(discriminate)) as (v & g & us & t & E2 & -> & Hg & Hs). inv E2. eapply a_collect, a_opt, a_map.
    cbn in L. eapply a_and; [apply a_h16; [exact Hg|eapply sep_hd; [exact Hs|reflexivity]]|].
    eapply a_upto; [eapply sep_chain; [exact Hs|reflexivity]|lia|exact Hn|]. right. eexists.
    change (bs "::" ++ rest) with ([chr ":"] ++ (chr ":" :: rest)). eapply r_skip_left2; [apply a_elm|]. now apply r_h16.
Qed.
Lemma r_p1_seq : forall n vs s rest, left_part vs s -> n + 1 < length vs -> 1 <= n ->
  rej (p_and (ip_v6_address_p1 n) (p_seqN (bs "::"))) (s ++ bs "::" ++ rest) true.
Proof.
  intros n vs s rest H L Hn.
  destruct (left_sep H ltac:(destruct vs; [cbn in L; lia|discriminate])) as (v & g & us & t & -> & -> & Hg & Hs).
  cbn in L. destruct (@sep_cut us t n Hs ltac:(lia)) as (t1 & t2 & -> & S1 & S2).
  assert (X : exists x u, t2 = chr ":" :: x :: u /\ hexdig x).
  { inv S2; [apply (f_equal (@List.length N)) in H1; rewrite skipn_length in H1; cbn in H1; lia|].
    match goal with K : group _ ?s |- _ => destruct (group_hd K) as (x & u & -> & Hx) end. cbn. eauto. }
  destruct X as (x & u & -> & Hx).
  replace ((g ++ t1 ++ chr ":" :: x :: u) ++ bs "::" ++ rest) with ((g ++ t1) ++ chr ":" :: x :: u ++ bs "::" ++ rest)
    by (cbn [app]; rewrite <- !app_assoc; reflexivity).
  eapply r_and2; [|apply r_seq2; intros ->; now apply hex_not_colon in Hx].
  unfold ip_v6_address_p1. eapply a_collect, a_opt, a_map. eapply a_and; [apply a_h16; [exact Hg|eapply sep_hd; [exact S1|reflexivity]]|].
  eapply a_upto; [eapply sep_chain; [exact S1|reflexivity]| |exact Hn|left]; rewrite firstn_length; lia.
Qed.
Lemma r_p1_more : forall A n vs s rest, left_part vs s -> n + 1 < length vs -> 1 <= n -> forall q : parser N A,
  rej (p_and (p_and (ip_v6_address_p1 n) (p_seqN (bs "::"))) q) (s ++ bs "::" ++ rest) true.
Proof. intros A n vs s rest H L Hn q. apply r_and1. eapply r_p1_seq; eassumption. Qed.

(** ** The alternatives *)
Section Address.
Variable v6_parse : bytes -> ipv6 + unit.
(** The standard library reads every text of RFC 4291. *)
Hypothesis Hstd : forall a s, ipv6_text a s -> v6_parse s = inl a.

Lemma left_ascii : forall vs s, left_part vs s -> ascii s.
Proof.
  assert (G : forall vs s, groups_colon vs s -> ascii s).
  { intros vs s H. induction H as [|v s vs t (H & _) _ IH]; [constructor|]. apply Forall_app. split; [now apply hex_ascii|].
    constructor; [reflexivity|exact IH]. }
  intros vs s H. destruct H as [|vs t v s H (K & _)]; [constructor|]. apply Forall_app. split; [eapply G, H|now apply hex_ascii].
Qed.
Lemma right_ascii : forall vs s, right_part vs s -> ascii s.
Proof.
  assert (G : forall vs s, groups_colon vs s -> ascii s).
  { intros vs s H. induction H as [|v s vs t (H & _) _ IH]; [constructor|]. apply Forall_app. split; [now apply hex_ascii|].
    constructor; [reflexivity|exact IH]. }
  intros vs s H. apply right_shape_of in H. destruct H as [|vs t v s H (K & _)|vs t a b c d s H K]; [constructor| |]; apply Forall_app; split; try (eapply G, H).
  - now apply hex_ascii.
  - apply ipv4_chars in K. eapply Forall_impl; [|apply K]. cbv beta. intros x [X| ->]; [unfold digit in X; lia|reflexivity].
Qed.
Lemma a_to_v6 : forall p s rest a, acc p s rest s -> ascii s -> ipv6_text a s -> acc (to_ipv6 v6_parse p) s rest a.
Proof. intros p s rest a H Ha Ht. unfold to_ipv6. eapply a_map_res; [now apply a_to_string|]. now apply Hstd. Qed.

(** Eight groups. *)
Lemma a_v6_1 : forall vs s rest, v6_end rest -> right_part vs s -> length vs = 8 -> acc ip_v6_address1 s rest vs.
Proof.
  intros vs s rest Hend H L. unfold ip_v6_address1.
  destruct (right_last H ltac:(lia)) as (us & u & ws & w & -> & -> & H1 & H2). rewrite app_length, (last32_length H2) in L.
  destruct (@a_ls32 ws w rest H2 (end_hex _ Hend)) as (b & B & <-).
  eapply a_map_panic with (v := (us, b)).
  - eapply a_and; [eapply a_count; [now apply chain_groups|lia|lia]|exact B].
  - cbn [fst snd]. now rewrite index_n_all by lia.
Qed.
Lemma a_v6_full : forall vs s rest, v6_end rest -> right_part vs s -> length vs = 8 -> acc (ip_v6_address v6_parse) s rest vs.
Proof. intros vs s rest Hend H L. unfold ip_v6_address. apply a_name. do 8 apply a_or1. apply a_attempt. now apply a_v6_1. Qed.

(** A shortened address. *)
Variables (ls : list N) (s : bytes) (rs : list N) (t : bytes) (rest : bytes).
Hypothesis (HL : left_part ls s) (HR : right_part rs t) (HN : length ls + length rs <= 7).
Hypothesis H7 : length ls <= 6.
Hypothesis Hend : v6_end rest.
Let value := ls ++ repeat 0%N (8 - length ls - length rs) ++ rs.
Let text := s ++ bs "::" ++ t.
Let fits : ipv6_text value text.
Proof. now apply t6_short. Qed.
Let whole := text ++ rest.
Let whole_eq : whole = s ++ bs "::" ++ t ++ rest.
Proof. unfold whole, text. now rewrite <- !app_assoc. Qed.
Let text_ascii : ascii text.
Proof. unfold text. apply Forall_app. split; [eapply left_ascii, HL|]. repeat (constructor; [reflexivity|]). eapply right_ascii, HR. Qed.

Lemma r_alt1 : rej ip_v6_address1 whole false.
Proof.
  rewrite whole_eq. unfold ip_v6_address1. apply r_map_panic. destruct (left_colon HL) as [[-> ->]|[Hne G]].
  - apply r_and1. apply (@r_upto N N _ 6 6 [] _ [] false); [constructor|cbn; lia|lia|]. now apply item_skip.
  - replace (s ++ bs "::" ++ t ++ rest) with ((s ++ bs ":") ++ chr ":" :: t ++ rest) by now rewrite <- app_assoc.
    pose proof (chain_groups (chr ":" :: t ++ rest) G) as C. destruct (Nat.eq_dec (length ls) 6) as [E|E].
    + eapply r_and2; [eapply a_count; [exact C|exact E|lia]|]. apply r_ls32_hd; [reflexivity|discriminate].
    + apply r_and1. eapply r_upto; [exact C|lia|lia|]. now apply item_skip.
Qed.
Lemma whole_hd : ls <> [] -> exists x u, whole = x :: u /\ hexdig x.
Proof.
  intros Hne. rewrite whole_eq. destruct (left_sep HL Hne) as (v & g & us & u & -> & -> & Hg & _).
  destruct (group_hd Hg) as (x & w & -> & Hx). cbn. eauto.
Qed.
Lemma r_alt2 : ls <> [] \/ length rs < 7 -> rej ip_v6_address2 whole false.
Proof.
  intros H. unfold ip_v6_address2. apply r_map_panic. destruct (list_eq_dec N.eq_dec ls []) as [E|E].
  - destruct H as [H|H]; [contradiction|]. rewrite whole_eq. subst ls. apply left_nil in HL. subst s. cbn [app].
    change (chr ":" :: chr ":" :: t ++ rest) with (bs "::" ++ t ++ rest).
    destruct (@right_low N _ 5 rs t rest Hend item_skip HR ltac:(lia) ltac:(lia)) as [K|(t1 & t2 & ws & E & K1 & K2)].
    + apply r_and1. eapply r_skip_left2; [apply a_seqN|exact K].
    + rewrite E, <- app_assoc, app_assoc. eapply r_and2; [|exact K2]. eapply a_skip_left; [apply a_seqN|exact K1].
  - destruct (whole_hd E) as (x & u & -> & Hx). apply r_and1, r_skip_left1. apply (@r_seqN (chr ":") [chr ":"]).
    now apply hex_not_colon.
Qed.
Lemma r_alt3 : 1 < length ls \/ length rs < 6 -> exists c, rej ip_v6_address3 whole c.
Proof.
  intros H. unfold ip_v6_address3. rewrite whole_eq. destruct (le_lt_dec (length ls) 1) as [L|L].
  - destruct H as [H|H]; [lia|].
    assert (O : exists o, acc (p_opt h16) s (bs "::" ++ t ++ rest) o).
    { destruct (list_eq_dec N.eq_dec ls []) as [E|E].
      - subst ls. apply left_nil in HL. subst s. eexists. eapply a_opt_none, r_h16. reflexivity.
      - destruct (left_sep HL E) as (v & g & us & u & E1 & E2 & Hg & Hs). rewrite E1 in L. destruct us; [|cbn in L; lia]. apply sep_nil in Hs.
        rewrite E2, Hs, app_nil_r. eexists. apply a_opt, a_h16; [exact Hg|reflexivity]. }
    destruct O as [o O]. exists false. apply r_map_panic. rewrite app_assoc.
    destruct (@right_low N _ 4 rs t rest Hend item_skip HR ltac:(lia) ltac:(lia)) as [K|(t1 & t2 & ws & E & K1 & K2)].
    + apply r_and1. eapply r_and2; [eapply a_skip_right; [exact O|apply a_seqN]|exact K].
    + rewrite E. replace ((s ++ bs "::") ++ (t1 ++ t2) ++ rest) with (((s ++ bs "::") ++ t1) ++ t2 ++ rest)
        by now rewrite <- !app_assoc. eapply r_and2; [|exact K2]. eapply a_and; [eapply a_skip_right; [|apply a_seqN]|exact K1].
      rewrite E, <- app_assoc in O. exact O.
  - exists true. apply r_map_panic, r_and1, r_and1.
    destruct (left_sep HL ltac:(destruct ls; [cbn in L; lia|discriminate])) as (v & g & us & u & E1 & E2 & Hg & Hs).
    destruct Hs as [|v2 g2 us u Hg2 Hs]; [rewrite E1 in L; cbn in L; lia|]. rewrite E2, <- app_assoc.
    eapply r_skip_right2; [apply a_opt, a_h16; [exact Hg|reflexivity]|]. destruct (group_hd Hg2) as (x & w & -> & Hx).
    cbn [app]. apply r_seq2. intros ->. now apply hex_not_colon in Hx.
Qed.
Lemma r_alt : forall A n (q : parser N A), 1 <= n -> rej q (t ++ rest) false ->
  exists c, rej (p_and (p_and (ip_v6_address_p1 n) (p_seqN (bs "::"))) q) whole c.
Proof.
  intros A n q Hn H. rewrite whole_eq. destruct (le_lt_dec (length ls) (n + 1)) as [L|L].
  - exists false. rewrite app_assoc. eapply r_and2; [|exact H]. eapply a_and; [eapply a_p1_all; eassumption|apply a_seqN].
  - exists true. eapply r_p1_more; eassumption.
Qed.
Lemma a_alt : forall A n (q : parser N A) v, 1 <= n -> length ls <= n + 1 -> acc q t rest v ->
  exists w, acc (p_and (p_and (ip_v6_address_p1 n) (p_seqN (bs "::"))) q) text rest w.
Proof.
  intros A n q v Hn L H. eexists. unfold text. rewrite app_assoc. eapply a_and; [|exact H].
  eapply a_and; [eapply a_p1_all; eassumption|apply a_seqN].
Qed.
Lemma r_altn : forall A n (q : parser N A), 1 <= n -> rej q (t ++ rest) false ->
  rej (p_attempt (to_ipv6 v6_parse (p_collect (p_and (p_and (ip_v6_address_p1 n) (p_seqN (bs "::"))) q)))) whole false.
Proof. intros A n q Hn H. destruct (@r_alt A n q Hn H) as [c K]. eapply r_attempt, r_map_res, r_to_string, r_collect, K. Qed.
Lemma a_altn : forall A n (q : parser N A) v, 1 <= n -> length ls <= n + 1 -> acc q t rest v ->
  acc (to_ipv6 v6_parse (p_collect (p_and (p_and (ip_v6_address_p1 n) (p_seqN (bs "::"))) q))) text rest value.
Proof. intros A n q v Hn L H. destruct (@a_alt A n q v Hn L H) as [w K]. apply a_to_v6; [eapply a_collect, K|exact text_ascii|exact fits]. Qed.
Lemma right_two : length rs = 2 -> exists b, acc ls32 t rest b.
Proof.
  intros D. destruct (right_last HR ltac:(lia)) as (us & u & ws & w & Er & Et & H1 & H2).
  rewrite Er, app_length, (last32_length H2) in D. destruct us; [|cbn in D; lia].
  destruct (@a_ls32 ws w rest H2 (end_hex _ Hend)) as (b & B & Eb). exists b. rewrite Et. now inv H1.
Qed.
Lemma right_one : length rs = 1 -> exists b, acc h16 t rest b.
Proof.
  intros D. pose proof (right_shape_of HR) as K. destruct K as [|vs u v g K1 K2|vs u a b c d g K1 K2]; [discriminate| |];
    rewrite app_length in D; cbn in D; [|lia]. destruct vs; [|cbn in D; lia]. exists v. inv K1. apply a_h16; [exact K2|now apply end_hex].
Qed.
Lemma right_zero : length rs = 0 -> t = [].
Proof.
  intros D. pose proof (right_shape_of HR) as K. destruct K as [|vs u v g K1 K2|vs u a b c d g K1 K2]; [reflexivity| |];
    rewrite app_length in D; cbn in D; lia.
Qed.
Lemma a_alt2 : length rs = 7 -> acc ip_v6_address2 text rest value.
Proof.
  intros D. unfold ip_v6_address2.
  assert (E : ls = []) by (destruct ls; [reflexivity|cbn in HN; lia]).
  destruct (right_last HR ltac:(lia)) as (us & u & ws & w & Er & Et & H1 & H2).
  destruct (@a_ls32 ws w rest H2 (end_hex _ Hend)) as (b & B & Eb).
  rewrite Er, app_length, (last32_length H2) in D.
  unfold text, value. subst ls. apply left_nil in HL. subst s. cbn [app List.length]. rewrite Er, app_length, (last32_length H2), D, Et.
  replace (bs "::" ++ u ++ w) with ((bs "::" ++ u) ++ w) by now rewrite <- app_assoc. eapply a_map_panic with (v := (us, b)).
  - eapply a_and; [eapply a_skip_left; [apply a_seqN|eapply a_count; [now apply chain_groups|lia|lia]]|exact B].
  - cbn [fst snd]. rewrite index_n_all by lia. now rewrite Eb.
Qed.
Lemma a_alt3 : length rs = 6 -> acc ip_v6_address3 text rest value.
Proof.
  intros D. unfold ip_v6_address3.
  destruct (right_last HR ltac:(lia)) as (us & u & ws & w & Er & Et & H1 & H2).
  destruct (@a_ls32 ws w rest H2 (end_hex _ Hend)) as (b & B & Eb).
  pose proof D as D'. rewrite Er, app_length, (last32_length H2) in D'.
  assert (O : exists o, acc (p_opt h16) s (bs "::" ++ t ++ rest) o /\
     value = [match o with Some x => x | None => 0%N end; 0%N] ++ rs).
  { destruct (list_eq_dec N.eq_dec ls []) as [E|E].
    - unfold value. rewrite D. subst ls. apply left_nil in HL. subst s. eexists. split; [eapply a_opt_none, r_h16; reflexivity|reflexivity].
    - destruct (left_sep HL E) as (v & g & us' & u' & E1 & E2 & Hg & Hs). destruct us'; [|rewrite E1 in HN; cbn in HN; lia]. apply sep_nil in Hs.
      exists (Some v). split; [rewrite E2, Hs, app_nil_r; apply a_opt, a_h16; [exact Hg|reflexivity]|]. unfold value. now rewrite E1, D. }
  destruct O as (o & O & ->). unfold text. rewrite Et in O |- *.
  replace (s ++ bs "::" ++ u ++ w) with (((s ++ bs "::") ++ u) ++ w) by now rewrite <- !app_assoc.
  eapply a_map_panic with (v := ((o, us), b)).
  - eapply a_and; [eapply a_and; [eapply a_skip_right; [|apply a_seqN]|eapply a_count; [now apply chain_groups|lia|lia]]|exact B].
    rewrite <- app_assoc in O. exact O.
  - cbn [fst snd]. rewrite index_n_all by lia. cbn [option_map]. now rewrite Er, Eb.
Qed.
Lemma a_altm : forall n m, 1 <= n -> 1 <= m -> length rs = m + 2 -> length ls <= n + 1 ->
  acc (to_ipv6 v6_parse (ip_v6_address_p2 n m)) text rest value.
Proof.
  intros n m Hn Hm K L. unfold ip_v6_address_p2. destruct (@a_right _ _ m rs t rest Hend item_and HR K Hm) as [w W].
  eapply a_altn; [exact Hn|exact L|]. eapply a_collect, W.
Qed.
Lemma a_alt7 : length rs = 2 -> length ls <= 5 -> acc (ip_v6_address7 v6_parse) text rest value.
Proof. intros D L. destruct right_two as [b B]; [exact D|]. unfold ip_v6_address7. eapply a_altn; [lia|lia|exact B]. Qed.
Lemma a_alt8 : length rs = 1 -> acc (ip_v6_address8 v6_parse) text rest value.
Proof. intros D. destruct right_one as [b B]; [exact D|]. unfold ip_v6_address8. eapply a_altn; [lia|lia|exact B]. Qed.
Lemma a_alt9 : length rs = 0 -> acc (ip_v6_address9 v6_parse) text rest value.
Proof.
  intros D. pose proof (right_zero D) as E. unfold ip_v6_address9.
  apply a_to_v6; [|exact text_ascii|exact fits]. unfold text. rewrite E, app_nil_r. eapply a_collect, a_and; [|apply a_seqN].
  eapply a_p1_all; [exact HL|lia|lia].
Qed.
Lemma a_v6_short : acc (ip_v6_address v6_parse) text rest value.
Proof.
  unfold ip_v6_address. apply a_name.
  assert (R1 : rej (p_attempt ip_v6_address1) whole false) by (eapply r_attempt, r_alt1).
  assert (R2 : length rs < 7 -> rej (p_attempt ip_v6_address2) whole false) by (intros K; eapply r_attempt, r_alt2; now right).
  assert (R3 : length rs < 6 -> rej (p_attempt ip_v6_address3) whole false).
  { intros K. destruct r_alt3 as [c R]; [now right|]. eapply r_attempt, R. }
  assert (Q : forall n m, 1 <= n -> 1 <= m -> length rs < m + 2 -> rej (p_attempt (to_ipv6 v6_parse (ip_v6_address_p2 n m))) whole false).
  { intros n m Hn Hm K. unfold ip_v6_address_p2. apply r_altn; [exact Hn|]. apply r_collect. eapply r_right; try eassumption. apply item_and. }
  assert (D : length rs = 7 \/ length rs = 6 \/ length rs = 5 \/ length rs = 4 \/ length rs = 3 \/ length rs = 2 \/ length rs = 1 \/ length rs = 0) by lia.
  destruct D as [D|[D|[D|[D|[D|[D|[D|D]]]]]]].
  - do 7 apply a_or1. apply a_or2; [exact R1|]. apply a_attempt. now apply a_alt2.
  - do 6 apply a_or1. apply a_or2; [apply r_or; [exact R1|apply R2; lia]|]. apply a_attempt. now apply a_alt3.
  - do 5 apply a_or1. apply a_or2; [repeat apply r_or; first [exact R1|apply R2; lia|apply R3; lia]|]. apply a_attempt.
    apply a_altm; lia.
  - do 4 apply a_or1. apply a_or2; [repeat apply r_or; first [exact R1|apply R2; lia|apply R3; lia|apply Q; lia]|]. apply a_attempt.
    apply a_altm; lia.
  - do 3 apply a_or1. apply a_or2; [repeat apply r_or; first [exact R1|apply R2; lia|apply R3; lia|apply Q; lia]|]. apply a_attempt.
    apply a_altm; lia.
  - do 2 apply a_or1. apply a_or2; [repeat apply r_or; first [exact R1|apply R2; lia|apply R3; lia|apply Q; lia]|]. apply a_attempt.
    apply a_alt7; lia.
  - apply a_or1. apply a_or2; [repeat apply r_or; first [exact R1|apply R2; lia|apply R3; lia|apply Q; lia|idtac]|].
    + apply r_altn; [lia|]. eapply r_right_ls32; [exact Hend|exact HR|lia].
    + apply a_attempt. now apply a_alt8.
  - apply a_or2; [repeat apply r_or; first [exact R1|apply R2; lia|apply R3; lia|apply Q; lia|idtac]|].
    + apply r_altn; [lia|]. eapply r_right_ls32; [exact Hend|exact HR|lia].
    + apply r_altn; [lia|]. rewrite (right_zero D). apply r_h16. now apply end_hex.
    + now apply a_alt9.
Qed.
End Address.

(** Every text of RFC 4291 but the refused ones. *)
Definition seven_colons (s : bytes) : Prop := exists ls t, left_part ls t /\ length ls = 7 /\ s = t ++ bs "::".
Definition v6_text (a : ipv6) (s : bytes) : Prop := ipv6_text a s /\ ~ seven_colons s.
Lemma a_v6 : forall v6_parse, (forall a s, ipv6_text a s -> v6_parse s = inl a) ->
  forall a s rest, v6_end rest -> v6_text a s -> acc (ip_v6_address v6_parse) s rest a.
Proof.
  intros v6_parse Hstd a s rest Hend [H Hn]. destruct H as [vs s H L|ls s rs t HL HR HN]; [now apply a_v6_full|].
  apply a_v6_short; try assumption. destruct (Nat.eq_dec (length ls) 7) as [E|E]; [|lia]. exfalso. apply Hn.
  exists ls, s. split; [exact HL|]. split; [exact E|]. destruct rs as [|r rs]; [|cbn in HN; lia].
  apply right_shape_of in HR. remember [] as rs eqn:Er. destruct HR as [|vs u v g K1 K2|vs u a b c d g K1 K2]; [reflexivity| |]; destruct vs; discriminate.
Qed.

Lemma a_v6_bracket : forall v6_parse, (forall a s, ipv6_text a s -> v6_parse s = inl a) ->
  forall a s rest, v6_text a s -> acc (ip_v6_address v6_parse) s (chr "]" :: rest) a.
Proof. intros v6_parse Hstd a s rest H. apply a_v6; [exact Hstd| |exact H]. split; [reflexivity|]. split; discriminate. Qed.

(** ** Seven groups followed by '::' are refused, whatever comes next *)
Lemma r_v6_seven : forall v6_parse s rest, seven_colons s -> exists c, rej (ip_v6_address v6_parse) (s ++ rest) c.
Proof.
  intros v6_parse s rest (ls & t & HL & L & ->).
  assert (Hne : ls <> []) by (intros ->; discriminate).
  assert (W : (t ++ bs "::") ++ rest = t ++ bs "::" ++ rest) by now rewrite <- app_assoc.
  rewrite W. clear W.
  assert (A1 : rej ip_v6_address1 (t ++ bs "::" ++ rest) false).
  { unfold ip_v6_address1. apply r_map_panic. destruct HL as [|vs u v g HG Hv]; [congruence|]. rewrite app_length in L. cbn in L.
    rewrite <- app_assoc. eapply r_and2; [eapply a_count; [apply chain_groups, HG|lia|lia]|]. unfold ls32. apply r_or.
    - eapply r_attempt, r_map. change (bs "::" ++ rest) with ([chr ":"] ++ bs ":" ++ rest).
      rewrite app_assoc. eapply r_and2; [eapply a_skip_right; [apply a_h16; [exact Hv|reflexivity]|apply a_elm]|]. now apply r_h16.
    - apply r_ipv4_plain; [eapply group_no_dot, Hv|]. intros [K|K]; [unfold digit in K; cbn in K; lia|discriminate]. }
  destruct (left_sep HL Hne) as (v & g & us & u & E1 & E2 & Hg & Hs).
  assert (A2 : rej ip_v6_address2 (t ++ bs "::" ++ rest) false).
  { unfold ip_v6_address2. apply r_map_panic, r_and1, r_skip_left1. destruct (group_hd Hg) as (x & w & E & Hx). rewrite E2, E. cbn [app].
    apply (@r_seqN (chr ":") [chr ":"]). now apply hex_not_colon. }
  assert (A3 : rej ip_v6_address3 (t ++ bs "::" ++ rest) true).
  { unfold ip_v6_address3. apply r_map_panic, r_and1, r_and1.
    destruct Hs as [|v2 g2 us u Hg2 Hs]; [rewrite E1 in L; cbn in L; lia|]. rewrite E2, <- app_assoc.
    eapply r_skip_right2; [apply a_opt, a_h16; [exact Hg|reflexivity]|]. destruct (group_hd Hg2) as (x & w & -> & Hx).
    cbn [app]. apply r_seq2. intros ->. now apply hex_not_colon in Hx. }
  assert (B : forall A n (q : parser N A), 1 <= n <= 5 ->
    rej (p_attempt (to_ipv6 v6_parse (p_collect (p_and (p_and (ip_v6_address_p1 n) (p_seqN (bs "::"))) q)))) (t ++ bs "::" ++ rest) false).
  { intros A n q Hn. eapply r_attempt, r_map_res, r_to_string, r_collect, r_p1_more; [exact HL|lia|lia]. }
  assert (C : rej (to_ipv6 v6_parse (p_collect (p_and (ip_v6_address_p1 5) (p_seqN (bs "::"))))) (t ++ bs "::" ++ rest) true).
  { apply r_map_res, r_to_string, r_collect. eapply r_p1_seq; [exact HL|lia|lia]. }
  exists true. unfold ip_v6_address. apply r_name. repeat apply r_or; try (eapply r_attempt; eassumption); try exact C; unfold ip_v6_address4, ip_v6_address5, ip_v6_address6, ip_v6_address7, ip_v6_address8, ip_v6_address_p2; apply B; lia.
Qed.
(** Hence the accepted texts are exactly the others. *)
Lemma h_v6_text : forall v6_parse, (forall a s, v6_parse s = inl a -> ipv6_text a s) -> hoare (ip_v6_address v6_parse) v6_text.
Proof.
  intros v6_parse Ho inp off Hoff. pose proof (@h_v6 v6_parse inp off Hoff) as H.
  destruct (ip_v6_address v6_parse inp off) as [a n|e c| |] eqn:E; try exact H. destruct H as [Hn H]. split; [exact Hn|].
  split; [destruct H as [H|H]; [exact H|now apply Ho]|]. intros K. destruct (r_v6_seven v6_parse (skipn (off + n) inp) K) as [c R].
  assert (Ei : inp = firstn off inp ++ firstn n (skipn off inp) ++ skipn (off + n) inp).
  { rewrite <- (firstn_skipn off inp) at 1. f_equal. rewrite <- (firstn_skipn n (skipn off inp)) at 1. f_equal.
    clear. revert inp. induction off as [|off IH]; intros inp; [reflexivity|]. destruct inp as [|x inp]; [now destruct n|]. cbn. apply IH. }
  specialize (R (firstn off inp)). rewrite <- Ei, firstn_length_le in R by lia. destruct R as [e R]. congruence.
Qed.
