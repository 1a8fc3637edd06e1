(** C49-C53, C67-C77: the hocon crate. *)
From Coq Require Import Permutation.
From Verif Require Import PropsC.
From Verif Require Import Base Core Comb Closure RepFacts LitFacts Hoare Runs Weak Agree Text Json JsonSpec JsonFacts
  Hocon HoconFacts HoconParse HoconLookup HoconResolve.
Set Implicit Arguments.
Local Open Scope string_scope.
Local Open Scope nat_scope.
Local Open Scope list_scope.

(** Oracles for the examples: a number is its text (signed or not); no environment; no files. *)
Definition xdec (s : list N) : option (list N) := if existsb (fun c => (c =? 101)%N || (c =? 69)%N) s then None else Some s.
Definition nothing (s : list N) : option (list N) := None.
Definition nl : list N := [10]%N.
Definition load (text : list N) : rs (option (cv (list N))) := parse_from_string xdec nothing nothing 30 text.

(** ** C49: repeated keys *)
(** In the list of properties of a document the first scalar value of a key wins ... *)
Theorem C49_first_wins : forall D (props : list (list N * cv D)) k v vs,
  values_of props k = v :: vs -> scalar v -> hm_get (top_fold props) k = Some v.
Proof. intros D props k v vs E H. rewrite top_fold_get, E. now rewrite fold_merge_scalar. Qed.
(** ... so the later value does not win, for any key and any two different scalar values. *)
Theorem C49_later_wins_refuted : forall D k (a b : cv D), scalar a -> a <> b ->
  exists props, values_of props k = [a; b] /\ hm_get (top_fold props) k <> Some b.
Proof.
  intros D k a b Ha Hab. exists [(k, a); (k, b)].
  assert (E : values_of [(k, a); (k, b)] k = [a; b]) by (cbn; destruct (list_eq_dec N.eq_dec k k); congruence).
  split; [exact E|]. rewrite (C49_first_wins _ _ E Ha). congruence.
Qed.
Example C49_document : exists c, load (bs "k = true" ++ nl ++ bs "k = false") = ROk (Some c) /\ get_value c (bs "k") = ROk (Some (CBool true)).
Proof. eexists. split; vm_compute; reflexivity. Qed.
(** Inside braces the last value is the one that lookups see. *)
Theorem C49_braces_later_wins_partial : forall D (props : list (list N * cv D)) k vs v,
  values_of props k = vs ++ [v] -> plain v -> (forall p x, v <> CLink p x) ->
  exists c, hm_get (obj_fold props) k = Some c /\ newest c v.
Proof.
  intros D props k vs v E Hp Hl. rewrite obj_fold_get, E. destruct vs as [|x vs]; cbn [app].
  - exists v. split; [reflexivity|]. right. auto.
  - eexists. split; [reflexivity|]. apply newest_iff. now apply fold_push_latest.
Qed.
Example C49_braces_document : exists c, load (bs "a { k = true, k = false }") = ROk (Some c) /\ get_value c (bs "a.k") = ROk (Some (CBool false)).
Proof. eexists. split; vm_compute; reflexivity. Qed.
Print Assumptions C49_first_wins.
Print Assumptions C49_later_wins_refuted.
Print Assumptions C49_braces_later_wins_partial.

(** ** C50: merging *)
Theorem C50_keywise : forall D (a b : list (list N * cv D)), NoDup (map fst b) -> exists m,
  merge_with (CObj a) (CObj b) = CObj m /\
  forall k, hm_get m k = match hm_get a k, hm_get b k with
                         | Some x, Some y => Some (merge_with x y)
                         | Some x, None => Some x
                         | None, Some y => Some y
                         | None, None => None
                         end.
Proof.
  intros D a b H. exists (merge_maps a b). split; [apply merge_obj|]. intros k. rewrite merge_maps_get by exact H.
  destruct (hm_get a k), (hm_get b k); reflexivity.
Qed.
Theorem C50_identity : forall D (m : list (list N * cv D)), NoDup (map fst m) ->
  merge_with (CObj m) (CObj []) = CObj m /\ merge_with (CObj []) (CObj m) = CObj m.
Proof. intros D m H. split; [apply merge_nil_r|now apply merge_nil_l]. Qed.
(** Objects of objects, of any depth. *)
Theorem C50_associative : forall D (a b c : cv D), tree a -> tree b -> tree c ->
  merge_with (merge_with a b) c = merge_with a (merge_with b c).
Proof. intros. now apply merge_assoc_tree. Qed.
(** More generally, when for each path the three agree on what is an object, what an array and what a scalar. *)
Theorem C50_associative_schema : forall D s (a b c : cv D), conforms s a -> conforms s b -> conforms s c ->
  merge_with (merge_with a b) c = merge_with a (merge_with b c).
Proof. intros. eapply merge_assoc; eauto. Qed.
(** The left scalar is kept, arrays are appended. *)
Theorem C50_leaves : forall D (a b : cv D) (l r : list (cv D)), scalar a -> merge_with a b = a /\ merge_with (CArr l) (CArr r) = CArr (l ++ r).
Proof. intros. split; [now apply merge_scalar|apply merge_arr]. Qed.
(** Without that agreement merging is not associative: a scalar hides the object that follows only once it has been merged. *)
Theorem C50_mixed_not_associative : forall D, exists a b c : cv D,
  clean (fun _ => None) a /\ clean (fun _ => None) b /\ clean (fun _ => None) c /\
  merge_with (merge_with a b) c <> merge_with a (merge_with b c).
Proof.
  intros D. exists (CObj [(bs "k", CObj [(bs "x", CNull)])]), (CObj [(bs "k", CNull)]), (CObj [(bs "k", CObj [(bs "y", CNull)])]).
  assert (N1 : forall k : list N, NoDup [k]) by (intros k; repeat constructor; intros []).
  split; [|split; [|split]]; try (repeat (constructor; try apply N1)). discriminate.
Qed.
Example C50_case : merge_with (D := nat) (CObj [(bs "a", CObj [(bs "x", CNull)]); (bs "l", CArr [CNull])]) (CObj [(bs "a", CObj [(bs "y", CBool true)]); (bs "l", CArr [CBool true])])
  = CObj [(bs "a", CObj [(bs "x", CNull); (bs "y", CBool true)]); (bs "l", CArr [CNull; CBool true])].
Proof. reflexivity. Qed.
Example C50_tree_case : tree (D := nat) (CObj [(bs "a", CObj []); (bs "b", CObj [(bs "c", CObj [])])]).
Proof.
  assert (N0 : tree (D := nat) (CObj [])) by (constructor; [constructor|intros k v E; discriminate E]).
  assert (N1 : tree (D := nat) (CObj [(bs "c", CObj [])])).
  { constructor; [repeat constructor; intros []|]. intros k v E. apply get_in in E. destruct E as [E|[]]. now inv E. }
  constructor; [repeat constructor; cbn; intuition discriminate|]. intros k v E. apply get_in in E. destruct E as [E|[E|[]]]; now inv E.
Qed.
Print Assumptions C50_keywise.
Print Assumptions C50_identity.
Print Assumptions C50_associative.
Print Assumptions C50_associative_schema.
Print Assumptions C50_leaves.
Print Assumptions C50_mixed_not_associative.

(** ** C51: lookup *)
(** [reaches ks v x]: descending from v through the keys ks ends in x; a chain of values counts as its newest value. *)
Theorem C51_lookup_partial : forall D (v : cv D) ks, ks <> [] -> Forall component ks ->
  exists o, get_value v (dotted ks) = ROk o /\ forall x, o = Some x <-> reaches ks v x.
Proof. intros D v ks Hne Hc. apply get_dotted; auto. Qed.
(** has_path says whether get_value finds something, on every path whatsoever; it panics on the same paths. *)
Theorem C51_has_path : forall D (v : cv D) path,
  match get_value v path with
  | ROk (Some _) => has_path v path = ROk true
  | ROk None => has_path v path = ROk false
  | RPanic => has_path v path = RPanic
  | RDiverge => False
  end.
Proof.
  intros D v path. unfold has_path, get_value. rewrite has_get. pose proof (@get_returns D (S (length path)) v path (Nat.lt_succ_diag_r _)) as H.
  destruct (get_value_fuel (S (length path)) v path) as [[x|]| |]; try reflexivity. congruence.
Qed.
(** On other paths lookups can panic: a trailing dot below an existing object. *)
Theorem C51_lookup_total_refuted : forall D, exists (v : cv D) path, get_value v path = RPanic /\ has_path v path = RPanic.
Proof. intros D. exists (CObj [(bs "a", CObj [])]), (bs "a."). split; vm_compute; reflexivity. Qed.
(** Values reached are unique. *)
Theorem C51_unique : forall D (v : cv D) ks x y, reaches ks v x -> reaches ks v y -> x = y.
Proof.
  intros D v ks x y H. revert y. induction H as [k m c x E Hn|k ks m c x y Hne E Hn H IH]; intros z Hz; inversion Hz; subst; try congruence.
  - apply newest_iff in Hn. match goal with K : newest _ z |- _ => apply newest_iff in K end. congruence.
  - apply newest_iff in Hn. match goal with K : newest _ ?w |- _ => apply newest_iff in K; assert (w = x) as -> by congruence end. now apply IH.
Qed.
Example C51_case : exists c, load (bs "a { b { c = true } }") = ROk (Some c) /\ get_value c (dotted [bs "a"; bs "b"; bs "c"]) = ROk (Some (CBool true)) /\
  Forall component [bs "a"; bs "b"; bs "c"] /\ reaches [bs "a"; bs "b"; bs "c"] c (CBool true) /\ get_value c (dotted [bs "a"; bs "c"]) = ROk None.
Proof.
  eexists. split; [vm_compute; reflexivity|]. assert (F : Forall component [bs "a"; bs "b"; bs "c"]).
  { repeat constructor; try discriminate; left; reflexivity. }
  split; [vm_compute; reflexivity|]. split; [exact F|]. split; [|vm_compute; reflexivity].
  eapply reach_more; [discriminate|reflexivity|right; split; [reflexivity|discriminate]|].
  eapply reach_more; [discriminate|reflexivity|right; split; [reflexivity|discriminate]|].
  eapply reach_last; [reflexivity|right; split; [reflexivity|discriminate]].
Qed.
Print Assumptions C51_lookup_partial.
Print Assumptions C51_has_path.
Print Assumptions C51_lookup_total_refuted.
Print Assumptions C51_unique.

(** ** C52: panics while loading *)
(** The empty text, a number with an exponent and no fraction, and a reference that is found nowhere. *)
Theorem C52_no_panic_refuted : forall D (dec : list N -> option D) env files fuel,
  parse_from_string dec env files fuel [] = RPanic /\ parse_from_string dec env files fuel (bs "a = 1e5") = RPanic.
Proof. intros. split; vm_compute; reflexivity. Qed.
Example C52_unresolved : load (bs "a = ${b}") = RPanic.
Proof. vm_compute. reflexivity. Qed.
(** A text that parses to at least one value, without references, includes and enumerations, loads. *)
Theorem C52_plain_loads_partial : forall D (dec : list N -> option D) env files text vs n,
  hocon_p dec text 0 = Success vs n -> vs <> [] -> Forall (@noref D) vs ->
  exists m x, noref x /\ forall fuel, m <= fuel -> parse_from_string dec env files fuel text = ROk (Some x).
Proof. intros. eapply noref_loads; eauto. Qed.
(** A text that does not parse has a part that was read and a rest.  It is reported as an error if the rest is at least two
    bytes longer than what was read; otherwise making the message panics (model.rs 87). *)
Lemma attempt_uncommitted : forall I A (p : parser I A) inp off e c, p_attempt p inp off = Failure e c -> c = false.
Proof. intros I A p inp off e c. unfold p_attempt. destruct (p inp off) as [v n|e1 [|]| |]; intros H; inv H; reflexivity. Qed.
Definition document_p {D} (dec : list N -> option D) (text : list N) : outcome N (list (cv D)) := (* parsers.rs 326 without the final end() *)
  p_skip_left space_or_comment (config_step (value_fuel dec (S (length text))) (property_fuel dec (S (length text)))) text 0.
Theorem C52_syntax_error : forall D (dec : list N -> option D) text e c, hocon_p dec text 0 = Failure e c ->
  exists vs n, document_p dec text = Success vs n /\ n < length text /\ forall env files fuel,
    parse_from_string dec env files fuel text = if length text - n <? n + 2 then RPanic else ROk None.
Proof.
  intros D dec text e c E. pose proof E as E0. unfold hocon_p, hocon_fuel in E.
  assert (Hb : document_p dec text = p_skip_left space_or_comment (config_step (value_safe dec (S (length text))) (property_safe dec (S (length text)))) text 0).
  { unfold document_p. destruct (@ag_fuel D dec (S (length text)) (S (length text)) (le_n _)) as [B1 B2].
    apply (ag_skip_left (ag_refl space_or_comment) (ag_config dec B1 B2)). lia. }
  assert (W : forall vs n, document_p dec text = Success vs n -> n <= length text).
  { intros vs n K. rewrite Hb in K. destruct (w_safe dec (S (length text))) as [W1 W2].
    assert (H : whoare (p_skip_left space_or_comment (config_step (value_safe dec (S (length text))) (property_safe dec (S (length text))))) any).
    { eapply w_skip_left; [apply w_hoare, h_soc|apply (w_config W1 W2)|]. intros; exact I. }
    specialize (H text 0 (Nat.le_0_l _)). rewrite K in H. apply H. }
  assert (F : forall e c, document_p dec text <> Failure e c).
  { intros e' c' K. rewrite Hb in K. unfold p_skip_left in K. destruct (@soc_succeeds text 0 (Nat.le_0_l _)) as (k & Es & Hk). rewrite Es in K. cbn [Nat.add] in K.
    destruct (w_safe dec (S (length text))) as [W1 W2].
    assert (NF : forall e c, config_step (value_safe dec (S (length text))) (property_safe dec (S (length text))) text k <> Failure e c).
    { intros e1 c1. unfold config_step. set (p1 := p_attempt (p_map _ _)). set (p2 := p_attempt (p_many1 _)). set (p3 := p_many0 _). 
      assert (A1 : forall e c, p1 text k = Failure e c -> c = false) by (intros e2 c2; apply attempt_uncommitted).
      assert (A2 : forall e c, p2 text k = Failure e c -> c = false) by (intros e2 c2; apply attempt_uncommitted).
      assert (A3 : forall e c, p3 text k <> Failure e c).
      { apply many0_no_fail; [|exact Hk]. eapply w_bounded. apply w_or; [apply w_attempt, (w_object W2)|apply (w_array W1)]. }
      clearbody p1 p2 p3. unfold p_or. destruct (p1 text k) as [v1 n1|e2 c2| |] eqn:E1; try discriminate.
      rewrite (A1 _ _ eq_refl). cbn [negb]. destruct (p2 text k) as [v1 n1|e3 c3| |] eqn:E2; try discriminate.
      rewrite (A2 _ _ eq_refl). cbn [negb]. apply A3. }
    destruct (config_step _ _ text k) as [v n|e1 c1| |]; try discriminate. now apply (NF e1 c1). }
  unfold p_skip_right in E. fold (document_p dec text) in E. destruct (document_p dec text) as [vs n|e1 c1| |] eqn:Ed; try discriminate; [|now destruct (F e1 c1)].
  pose proof (W _ _ eq_refl) as Hn. exists vs, n. split; [reflexivity|]. cbn [Nat.add] in E.
  destruct (p_end text n) as [u m|e1 c1| |] eqn:Ee; try discriminate. inv E.
  destruct (C29_element_partial (fun _ => true) text Hn (or_intror Ee)) as [K1 _].
  assert (Hlt : n < length text).
  { destruct (Nat.eq_dec n (length text)) as [->|J]; [|lia]. exfalso. unfold p_end in Ee. rewrite ps_input_ok in Ee by exact Hn.
    rewrite skipn_all in Ee. discriminate. }
  split; [exact Hlt|]. intros env files fuel. unfold parse_from_string, parse_from_string_with. rewrite E0.
  destruct (Nat.ltb_spec (length text - n) (n + 2)) as [L|L].
  - now rewrite (proj2 K1 L).
  - destruct (error_input e) as [o|]; [reflexivity|]. specialize (proj1 K1 eq_refl). lia.
Qed.
(** So not every text that does not parse is reported: a brace, a lone key, a document with something behind it. *)
Theorem C52_syntax_error_refuted : exists t1 t2 t3, forall D (dec : list N -> option D) env files fuel,
  (forall t, In t [t1; t2; t3] -> parse_from_string dec env files fuel t = RPanic) /\
  parse_from_string dec env files fuel (t1 ++ t1) = ROk None.
Proof.
  exists (bs "}"), (bs "a"), (bs "a = true }"). intros D dec env files fuel. split; [|vm_compute; reflexivity].
  intros t [<-|[<-|[<-|[]]]]; vm_compute; reflexivity.
Qed.
Example C52_plain_case : exists vs n, hocon_p xdec (bs "a.b = 1" ++ nl ++ bs "c { l = [1, 2] }") 0 = Success vs n /\ vs <> [] /\ Forall (@noref (list N)) vs.
Proof. eexists _, _. split; [vm_compute; reflexivity|]. split; [discriminate|]. repeat constructor. Qed.
Example C52_syntax_case : exists e c, hocon_p xdec (bs "a = [") 0 = Failure e c.
Proof. eexists _, _. vm_compute. reflexivity. Qed.
Print Assumptions C52_no_panic_refuted.
Print Assumptions C52_plain_loads_partial.
Print Assumptions C52_syntax_error.
Print Assumptions C52_syntax_error_refuted.

(** ** C53: the sign of numbers *)
(** The sign is read and dropped: with and without a minus sign the same numeral is converted. *)
Theorem C53_sign_ignored : forall D (dec : list N -> option D) i f e,
  number_of dec (Some 45%N, i, f, e) = number_of dec (None, i, f, e).
Proof. intros D dec i [f|] [e|]; reflexivity. Qed.
(** Every number of a parsed document is the value of a numeral that begins with a digit. *)
Inductive inside {D} : cv D -> cv D -> Prop :=
| in_self : forall v, inside v v
| in_arr : forall l v x, In v l -> inside x v -> inside x (CArr l)
| in_obj : forall m k v x, In (k, v) m -> inside x v -> inside x (CObj m)
| in_enum : forall o l v x, In v l -> inside x v -> inside x (CEnum o l)
| in_link_prev : forall p v x, inside x p -> inside x (CLink p v)
| in_link : forall p v x, inside x v -> inside x (CLink p v).
Lemma clean_inside : forall D (dec : list N -> option D) x v, inside x v -> clean dec v -> clean dec x.
Proof.
  intros D dec x v H. induction H; intros C; try exact C; inv C; auto.
  - apply IHinside. match goal with K : Forall _ l |- _ => now apply (proj1 (Forall_forall _ _) K) end.
  - apply IHinside. match goal with K : Forall _ m |- _ => now apply (proj1 (Forall_forall _ _) K) in H end.
  - apply IHinside. match goal with K : Forall _ l |- _ => now apply (proj1 (Forall_forall _ _) K) end.
Qed.
Theorem C53_all_unsigned : forall D (dec : list N -> option D) text vs n v d, hocon_p dec text 0 = Success vs n -> In v vs -> inside (CNum d) v ->
  exists c s, (48 <= c <= 57)%N /\ dec (c :: s) = Some d.
Proof.
  intros D dec text vs n v d E Hi Hd. pose proof (w_hocon dec text) as W. rewrite E in W. destruct W as [_ W].
  apply (proj1 (Forall_forall _ _) W) in Hi. apply (clean_inside Hd) in Hi. inv Hi. destruct s as [|c s]; [contradiction|]. exists c, s. split; assumption.
Qed.
(** So no document yields a negative number, although -5 is accepted. *)
Definition zdec (s : list N) : option bool := match s with 45%N :: _ => Some true | _ => Some false end. (* true: negative *)
Theorem C53_sign_refuted : exists c, parse_from_string zdec nothing nothing 5 (bs "a = -5") = ROk (Some c) /\
  get_value c (bs "a") = ROk (Some (CNum false)) /\ zdec (bs "-5") = Some true.
Proof. eexists. split; [vm_compute; reflexivity|]. split; vm_compute; reflexivity. Qed.
Example C53_case : exists c, load (bs "a = -5") = ROk (Some c) /\ load (bs "a = 5") = ROk (Some c) /\ get_value c (bs "a") = ROk (Some (CNum (bs "5"))).
Proof. eexists. split; [vm_compute; reflexivity|]. split; vm_compute; reflexivity. Qed.
Print Assumptions C53_sign_ignored.
Print Assumptions C53_all_unsigned.
Print Assumptions C53_sign_refuted.

(** ** C67: the parser returns *)
Theorem C67_parser_returns : forall D (dec : list N -> option D) text, hocon_p dec text 0 <> Diverge /\
  (forall fuel, length text < fuel -> hocon_fuel dec fuel text 0 = hocon_p dec text 0) /\
  (forall vs n, hocon_p dec text 0 = Success vs n -> n <= length text).
Proof.
  intros D dec text. pose proof (w_hocon dec text) as W. split; [|split].
  - intros E. now rewrite E in W.
  - intros fuel Hf. now apply hocon_fuel_enough.
  - intros vs n E. rewrite E in W. apply W.
Qed.
Example C67_case : exists vs n, hocon_p xdec (bs "a { b = [true, { c : null }] }") 0 = Success vs n /\ n = 30.
Proof. eexists _, _. split; vm_compute; reflexivity. Qed.
Print Assumptions C67_parser_returns.

(** ** C68: resolution does not always return *)
Theorem C68_resolution_returns_refuted : forall D (dec : list N -> option D) env files fuel,
  parse_from_string dec env files fuel (bs "a = ${a}") = RDiverge /\ parse_from_string dec env files fuel (bs "a = ${?a}") = RDiverge.
Proof.
  assert (C : component (bs "a")) by (split; [discriminate|repeat constructor]).
  intros D dec env files fuel. split; unfold parse_from_string, parse_from_string_with.
  - replace (hocon_p dec (bs "a = ${a}") 0) with (Success (I := N) [CObj (D := D) [(bs "a", CRef None (bs "a") false)]] 8) by (vm_compute; reflexivity).
    unfold resolve_stage0. destruct fuel as [|fuel]; [reflexivity|].
    rewrite undot_nothing by (intros k [<-|[]]; cbn; unfold no_dot; cbn; intuition discriminate).
    cbn [rbind rmap fold_left]. unfold resolve_stage1. cbn [resolve resolve_step rmap fst snd]. now rewrite (self_ref_diverges dec env files false fuel C).
  - replace (hocon_p dec (bs "a = ${?a}") 0) with (Success (I := N) [CObj (D := D) [(bs "a", CRef None (bs "a") true)]] 9) by (vm_compute; reflexivity).
    unfold resolve_stage0. destruct fuel as [|fuel]; [reflexivity|].
    rewrite undot_nothing by (intros k [<-|[]]; cbn; unfold no_dot; cbn; intuition discriminate).
    cbn [rbind rmap fold_left]. unfold resolve_stage1. cbn [resolve resolve_step rmap fst snd]. now rewrite (self_ref_diverges dec env files true fuel C).
Qed.
(** Any key that refers to itself. *)
Theorem C68_self_reference : forall D (dec : list N -> option D) env files k m fuel, component k ->
  resolve dec env files fuel (CRef None k m) (Some (CObj [(k, CRef None k m)])) = RDiverge.
Proof. intros. now apply self_ref_diverges. Qed.
(** Without references it does return. *)
Theorem C68_returns_partial : forall D (dec : list N -> option D) env files (v src : cv D), noref v ->
  exists n x y, forall fuel, n <= fuel -> resolve dec env files fuel v None = ROk x /\ resolve dec env files fuel v (Some src) = ROk y.
Proof.
  intros D dec env files v src H. destruct (noref_expands dec env files H) as (n & x & _ & E). destruct (noref_settles dec env files H) as [S _].
  destruct (S src) as [m E']. exists (n + m), x, v. intros fuel Hf. split; [apply E; lia|apply E'; lia].
Qed.
Example C68_case : component (bs "a-b_c").
Proof. split; [discriminate|]. repeat constructor; try (left; reflexivity); right; cbn; auto. Qed.
Print Assumptions C68_resolution_returns_refuted.
Print Assumptions C68_self_reference.
Print Assumptions C68_returns_partial.

(** ** C69: dotted keys *)
(** One dotted key with a value that needs no expansion is the same as nesting. *)
Theorem C69_single_dotted_key_partial : forall D (dec : list N -> option D) env files ks (v : cv D) fuel,
  2 <= length ks -> Forall component ks -> resolve dec env files fuel v None = ROk v -> (forall p x, v <> CLink p x) ->
  exists c, resolve dec env files (S fuel) (CObj [(dotted ks, v)]) None = ROk c /\ reaches ks c v /\ get_value c (dotted ks) = ROk (Some v).
Proof.
  intros D dec env files ks v fuel Hl Hc Hv Hk. exists (nest ks v). split; [|split].
  - apply undot_single; [exact Hl| |exact Hv]. eapply Forall_impl; [|exact Hc]. exact component_no_dot.
  - apply nest_reaches; [destruct ks; [cbn in Hl; lia|discriminate]|exact Hk].
  - assert (Hne : ks <> []) by (destruct ks; [cbn in Hl; lia|discriminate]).
    destruct (C51_lookup_partial (nest ks v) Hne Hc) as (o & E & Ho). rewrite E. f_equal. apply Ho. now apply nest_reaches.
Qed.
(** But next to a dotted key every key without a dot that is not the head of a dotted key disappears: the keys that remain are
    exactly the heads. *)
Theorem C69_siblings_lost : forall D (dec : list N -> option D) env files fuel m (x : cv D),
  resolve dec env files fuel (CObj m) None = ROk x -> (exists k, In k (map fst m) /\ In 46%N k) ->
  exists m', x = CObj m' /\ forall k, hm_get m' k <> None <-> exists t, In (k ++ 46%N :: t) (map fst m) /\ ~ In 46%N k.
Proof. intros D dec env files fuel m x E H. exact (undot_loses dec env files fuel m E H). Qed.
(** Dotted keys below an undotted key are never expanded. *)
Theorem C69_nested_not_expanded : forall D (dec : list N -> option D) env files fuel (m : list (list N * cv D)),
  (forall k, In k (map fst m) -> ~ In 46%N k) -> resolve dec env files (S fuel) (CObj m) None = ROk (CObj m).
Proof. intros. now apply undot_nothing. Qed.
Theorem C69_dotted_keys_refuted : 
  (exists c, load (bs "x.y = true" ++ nl ++ bs "b = true") = ROk (Some c) /\ has_path c (bs "x.y") = ROk true /\ has_path c (bs "b") = ROk false) /\
  (exists c, load (bs "a { x.y = true }") = ROk (Some c) /\ has_path c (bs "a.x.y") = ROk false).
Proof. split; eexists; repeat split; vm_compute; reflexivity. Qed.
Example C69_case : exists c, load (bs "x.y.z = true") = ROk (Some c) /\ get_value c (bs "x.y.z") = ROk (Some (CBool true)).
Proof. eexists. split; vm_compute; reflexivity. Qed.
Print Assumptions C69_single_dotted_key_partial.
Print Assumptions C69_siblings_lost.
Print Assumptions C69_nested_not_expanded.
Print Assumptions C69_dotted_keys_refuted.

(** ** C70: each line defines the key it begins with *)
(** A number swallows the first letters of the next key when they spell a unit. *)
Theorem C70_own_key_refuted : exists c, load (bs "a = 1" ++ nl ++ bs "debug = true") = ROk (Some c) /\
  has_path c (bs "debug") = ROk false /\ get_value c (bs "ebug") = ROk (Some (CBool true)) /\ get_value c (bs "a") = ROk (Some (CDur (bs "1") UDays)).
Proof. eexists. repeat split; vm_compute; reflexivity. Qed.
Print Assumptions C70_own_key_refuted.

(** ** C71: durations *)
(** The unit parser reads the first of ns, nano, us, micro, ms, milli, s, m, h, d that the text begins with, and nothing else. *)
Theorem C71_units : forall pre rest,
  (forall before w u after, unit_words = before ++ (w, u) :: after -> (forall w' u', In (w', u') before -> ~ prefix w' (w ++ rest)) ->
     time_unit_p (pre ++ w ++ rest) (length pre) = Success u (length w)) /\
  ((forall w u, In (w, u) unit_words -> ~ prefix w rest) -> exists e c, time_unit_p (pre ++ rest) (length pre) = Failure e c).
Proof.
  intros pre rest. split.
  - intros before w u after E H. pose proof (@acc_units before w u after rest E H) as A. apply A.
  - intros H. now apply rejx_units.
Qed.
(** Hence of a spelt-out unit only the symbol is read. *)
Definition long_units : list (list N * time_unit * nat) :=
  [(bs "nanoseconds", UNanos, 4); (bs "microseconds", UMicros, 5); (bs "milliseconds", UMillis, 5); (bs "seconds", USeconds, 1); (bs "second", USeconds, 1);
   (bs "minutes", UMinutes, 1); (bs "minute", UMinutes, 1); (bs "hours", UHours, 1); (bs "hour", UHours, 1); (bs "days", UDays, 1); (bs "day", UDays, 1)].
Ltac not_prefix := let H := fresh in intros ? ? H; cbn in H; repeat (destruct H as [H|H]; [injection H as <- <-; intros [? K]; discriminate K|]); contradiction H.
Theorem C71_long_units_refuted : forall w u n, In (w, u, n) long_units -> n < length w /\
  forall pre rest, time_unit_p (pre ++ w ++ rest) (length pre) = Success u n.
Proof.
  assert (G : forall before w u after t, unit_words = before ++ (w, u) :: after -> (forall rest w' u', In (w', u') before -> ~ prefix w' (w ++ t ++ rest)) ->
    forall pre rest, time_unit_p (pre ++ (w ++ t) ++ rest) (length pre) = Success u (length w)).
  { intros before w u after t E H pre rest. rewrite <- app_assoc. exact (proj1 (C71_units pre (t ++ rest)) before w u after E (H rest)). }
  intros w u n H. cbn in H.
  repeat (destruct H as [H|H]; [|]); try contradiction H; injection H as <- <- <-; (split; [cbn; lia|]).
  - apply (G (firstn 1 unit_words) (bs "nano") UNanos (skipn 2 unit_words) (bs "seconds")); [reflexivity|intros rest; not_prefix].
  - apply (G (firstn 3 unit_words) (bs "micro") UMicros (skipn 4 unit_words) (bs "seconds")); [reflexivity|intros rest; not_prefix].
  - apply (G (firstn 5 unit_words) (bs "milli") UMillis (skipn 6 unit_words) (bs "seconds")); [reflexivity|intros rest; not_prefix].
  - apply (G (firstn 6 unit_words) (bs "s") USeconds (skipn 7 unit_words) (bs "econds")); [reflexivity|intros rest; not_prefix].
  - apply (G (firstn 6 unit_words) (bs "s") USeconds (skipn 7 unit_words) (bs "econd")); [reflexivity|intros rest; not_prefix].
  - apply (G (firstn 7 unit_words) (bs "m") UMinutes (skipn 8 unit_words) (bs "inutes")); [reflexivity|intros rest; not_prefix].
  - apply (G (firstn 7 unit_words) (bs "m") UMinutes (skipn 8 unit_words) (bs "inute")); [reflexivity|intros rest; not_prefix].
  - apply (G (firstn 8 unit_words) (bs "h") UHours (skipn 9 unit_words) (bs "ours")); [reflexivity|intros rest; not_prefix].
  - apply (G (firstn 8 unit_words) (bs "h") UHours (skipn 9 unit_words) (bs "our")); [reflexivity|intros rest; not_prefix].
  - apply (G (firstn 9 unit_words) (bs "d") UDays (skipn 10 unit_words) (bs "ays")); [reflexivity|intros rest; not_prefix].
  - apply (G (firstn 9 unit_words) (bs "d") UDays (skipn 10 unit_words) (bs "ay")); [reflexivity|intros rest; not_prefix].
Qed.
Example C71_long_document : load (bs "a = 10 seconds") = RPanic /\
  exists c, load (bs "a = 10 s") = ROk (Some c) /\ get_value c (bs "a") = ROk (Some (CDur (bs "10") USeconds)).
Proof. split; [vm_compute; reflexivity|]. eexists. split; vm_compute; reflexivity. Qed.
(** Nanoseconds in one unit; whole seconds in one unit of at least a second. *)
Definition nanos_per (u : time_unit) : N :=
  match u with
  | UNanos => 1 | UMicros => 1000 | UMillis => 1000 * 1000 | USeconds => 1000 * 1000 * 1000
  | UMinutes => 60 * (1000 * 1000 * 1000) | UHours => 3600 * (1000 * 1000 * 1000) | UDays => 86400 * (1000 * 1000 * 1000)
  end%N.
Definition seconds_per (u : time_unit) : N := match u with UMinutes => 60 | UHours => 3600 | UDays => 86400 | _ => 1 end%N.
(** The conversion is exact while the number of seconds fits in 64 bits ... *)
Theorem C71_conversion_exact : forall D (to_u64 : D -> option N) wraps d u n, to_u64 d = Some n -> (n < 2 ^ 64)%N -> (n * seconds_per u < 2 ^ 64)%N ->
  to_std_duration to_u64 wraps d u = ROk (Some (n * nanos_per u)%N).
Proof.
  intros D to_u64 wraps d u n E Hn Hs. unfold to_std_duration. rewrite E. unfold u64_mul.
  assert (M : forall a b, (a * b < 2 ^ 64)%N -> (a * b <? 2 ^ 64)%N = true) by (intros a b H; now apply N.ltb_lt).
  destruct u; cbn [seconds_per nanos_per] in *; rewrite ?N.mul_1_r; try reflexivity;
    repeat (rewrite M by lia; cbn [rbind]); do 2 f_equal; lia.
Qed.
(** ... and panics otherwise in a build with overflow checks; in a build without them the result is too small. *)
Theorem C71_conversion_overflow : forall D (to_u64 : D -> option N) d u n, to_u64 d = Some n -> (n < 2 ^ 64)%N -> (2 ^ 64 <= n * seconds_per u)%N ->
  to_std_duration to_u64 false d u = RPanic /\ exists r, to_std_duration to_u64 true d u = ROk (Some r) /\ (r < n * nanos_per u)%N.
Proof.
  intros D to_u64 d u n E Hn Hs. unfold to_std_duration. rewrite E. unfold u64_mul.
  assert (T : forall a, (a < 2 ^ 64)%N -> (a <? 2 ^ 64)%N = true) by (intros a H; now apply N.ltb_lt).
  assert (F : forall a, (2 ^ 64 <= a)%N -> (a <? 2 ^ 64)%N = false) by (intros a H; now apply N.ltb_ge).
  assert (B : (2 ^ 64 <> 0)%N) by (vm_compute; discriminate).
  assert (Z : forall a, (a mod 2 ^ 64 < 2 ^ 64)%N) by (intros a; now apply N.mod_lt).
  assert (W : forall a, (a mod 2 ^ 64 <= a)%N) by (intros a; now apply N.mod_le).
  set (K := (2 ^ 64)%N) in *.
  destruct u; cbn [seconds_per nanos_per] in *; try (exfalso; lia).
  - (* days *) split.
    + destruct (N.ltb_spec (n * 60) K); cbn [rbind]; [|reflexivity]. destruct (N.ltb_spec (n * 60 * 60) K); cbn [rbind]; [|reflexivity].
      now rewrite F by lia.
    + assert (S1 : exists a, (if (n * 60 <? K)%N then ROk (n * 60)%N else ROk ((n * 60) mod K)%N) = ROk a /\ (a <= n * 60)%N /\ (a < K)%N /\ (K <= n * 60 -> a < n * 60)%N).
      { destruct (N.ltb_spec (n * 60) K); eexists; (split; [reflexivity|]); [lia|]. pose proof (Z (n * 60)%N). pose proof (W (n * 60)%N). lia. }
      destruct S1 as (a & -> & A1 & A2 & A3). cbn [rbind].
      assert (S2 : exists b, (if (a * 60 <? K)%N then ROk (a * 60)%N else ROk ((a * 60) mod K)%N) = ROk b /\ (b <= a * 60)%N /\ (b < K)%N /\ (K <= a * 60 -> b < a * 60)%N).
      { destruct (N.ltb_spec (a * 60) K); eexists; (split; [reflexivity|]); [lia|]. pose proof (Z (a * 60)%N). pose proof (W (a * 60)%N). lia. }
      destruct S2 as (b & -> & B1 & B2 & B3). cbn [rbind].
      assert (S3 : exists c, (if (b * 24 <? K)%N then ROk (b * 24)%N else ROk ((b * 24) mod K)%N) = ROk c /\ (c <= b * 24)%N /\ (c < K)%N).
      { destruct (N.ltb_spec (b * 24) K); eexists; (split; [reflexivity|]); [lia|]. pose proof (Z (b * 24)%N). pose proof (W (b * 24)%N). lia. }
      destruct S3 as (c & -> & C1 & C2). cbn [rbind]. eexists. split; [reflexivity|]. lia.
  - (* hours *) split.
    + destruct (N.ltb_spec (n * 60) K); cbn [rbind]; [|reflexivity]. now rewrite F by lia.
    + assert (S1 : exists a, (if (n * 60 <? K)%N then ROk (n * 60)%N else ROk ((n * 60) mod K)%N) = ROk a /\ (a <= n * 60)%N /\ (a < K)%N).
      { destruct (N.ltb_spec (n * 60) K); eexists; (split; [reflexivity|]); [lia|]. pose proof (Z (n * 60)%N). pose proof (W (n * 60)%N). lia. }
      destruct S1 as (a & -> & A1 & A2). cbn [rbind].
      assert (S2 : exists b, (if (a * 60 <? K)%N then ROk (a * 60)%N else ROk ((a * 60) mod K)%N) = ROk b /\ (b <= a * 60)%N /\ (b < K)%N).
      { destruct (N.ltb_spec (a * 60) K); eexists; (split; [reflexivity|]); [lia|]. pose proof (Z (a * 60)%N). pose proof (W (a * 60)%N). lia. }
      destruct S2 as (b & -> & B1 & B2). cbn [rbind]. eexists. split; [reflexivity|]. lia.
  - (* minutes *) split; [now rewrite F by lia|]. rewrite F by lia. cbn [rbind]. eexists. split; [reflexivity|]. pose proof (Z (n * 60)%N). lia.
Qed.
Example C71_conversion_case : to_std_duration (fun x : N => Some x) false 3%N UHours = ROk (Some 10800000000000%N) /\
  to_std_duration (fun x : N => Some x) false (2 ^ 63)%N UMinutes = RPanic.
Proof. split; vm_compute; reflexivity. Qed.
Print Assumptions C71_units.
Print Assumptions C71_long_units_refuted.
Print Assumptions C71_conversion_exact.
Print Assumptions C71_conversion_overflow.

(** ** C72: an optional reference that is found nowhere keeps the previous value *)
(** True after one previous value ... *)
Definition not_found {D} (env : list N -> option (list N)) (src : cv D) (path : list N) : Prop := get_value src path = ROk None /\ env path = None.
Theorem C72_optional_after_one_partial : forall D (dec : list N -> option D) env files (a src : cv D) path, noref a -> (forall p x, a <> CLink p x) ->
  not_found env src path ->
  exists n, forall fuel, n <= fuel -> exists c, resolve dec env files fuel (push a (CRef None path true)) (Some src) = ROk c /\ newest c a.
Proof.
  intros D dec env files a src path Ha Hl [Hg He]. destruct (noref_settles dec env files Ha) as [S _]. destruct (S src) as [n En].
  exists (Datatypes.S (Datatypes.S n)). intros [|[|fuel]] Hf; try lia.
  exists (CLink a a). split; [|left; now exists a]. assert (V : to_vec (push a (CRef None path true)) = [a; CRef (Some a) path true]).
  { unfold to_vec, push. cbn [to_vec_rev]. destruct a; try reflexivity. now destruct (Hl a1 a2). }
  unfold push in V |- *. set (f := Datatypes.S fuel) in *. cbn [resolve resolve_step]. rewrite V, En by lia. cbn [rbind rmap].
  assert (R : resolve dec env files f (CRef (Some a) path true) (Some src) = ROk a).
  { unfold f. cbn [resolve resolve_step]. rewrite Hg. cbn [rbind]. rewrite He. f_equal. destruct a; try reflexivity. now destruct (Hl a1 a2). }
  rewrite R. cbn [rbind fold_left]. f_equal. apply push_plain. now apply noref_plain.
Qed.
(** ... but after two the first of them comes back. *)
Theorem C72_optional_keeps_previous_refuted : forall D (dec : list N -> option D) env files (a b src : cv D) path, noref a -> noref b -> a <> b ->
  (forall p x, a <> CLink p x) -> not_found env src path ->
  exists n, forall fuel, n <= fuel -> exists c, resolve dec env files fuel (push (push a b) (CRef None path true)) (Some src) = ROk c /\ newest c a /\ ~ newest c b.
Proof.
  intros D dec env files a b src path Ha Hb Hab Hl [Hg He]. destruct (noref_settles dec env files Ha) as [Sa _]. destruct (Sa src) as [n En].
  destruct (noref_settles dec env files Hb) as [Sb _]. destruct (Sb src) as [n' En'].
  exists (S (S (n + n'))). intros [|[|fuel]] Hf; try lia.
  exists (CLink (CLink a b) a). split; [|split; [left; now eexists|intros K; apply newest_iff in K; cbn in K; congruence]].
  rewrite (push_plain a (noref_plain Hb)).
  assert (V : to_vec (push (CLink a b) (CRef None path true)) = [a; b; CRef (Some (CLink a b)) path true]).
  { unfold to_vec, push. cbn [to_vec_rev]. destruct a; try reflexivity. now destruct (Hl a1 a2). }
  unfold push in V |- *. set (f := S fuel) in *. cbn [resolve resolve_step]. rewrite V, En by lia. cbn [rbind rmap].
  rewrite En' by lia. cbn [rbind].
  assert (R : resolve dec env files f (CRef (Some (CLink a b)) path true) (Some src) = ROk a).
  { unfold f. cbn [resolve resolve_step]. rewrite Hg. cbn [rbind]. rewrite He. f_equal. cbn. destruct a; try reflexivity. now destruct (Hl a1 a2). }
  rewrite R. cbn [rbind fold_left]. f_equal. fold (push (D := D) a b). rewrite (push_plain a (noref_plain Hb)). apply push_plain. now apply noref_plain.
Qed.
Example C72_documents :
  (exists c, load (bs "o { k = true, k = ${?zz} }") = ROk (Some c) /\ get_value c (bs "o.k") = ROk (Some (CBool true))) /\
  (exists c, load (bs "o { k = true, k = false, k = ${?zz} }") = ROk (Some c) /\ get_value c (bs "o.k") = ROk (Some (CBool true))).
Proof. split; eexists; split; vm_compute; reflexivity. Qed.
Print Assumptions C72_optional_after_one_partial.
Print Assumptions C72_optional_keeps_previous_refuted.

(** ** C73: a chain keeps all its values in order *)
Theorem C73_chain : forall D (v : cv D) (l : list (cv D)), (forall p x, v <> CLink p x) -> Forall (@plain D) l ->
  to_vec (fold_left (@push D) l v) = v :: l.
Proof. intros D v l Hv Hl. rewrite fold_push by exact Hl. unfold to_vec. destruct v; try reflexivity. now destruct (Hv v1 v2). Qed.
(** Every value given to a key within braces is in the chain, the oldest first. *)
Theorem C73_braces_keep_all : forall D (props : list (list N * cv D)) k v vs, values_of props k = v :: vs ->
  (forall p x, v <> CLink p x) -> Forall (@plain D) vs ->
  exists c, hm_get (obj_fold props) k = Some c /\ to_vec c = v :: vs.
Proof. intros D props k v vs E Hv Hl. rewrite obj_fold_get, E. eexists. split; [reflexivity|]. now apply C73_chain. Qed.
Example C73_case : to_vec (fold_left (@push nat) [CBool true; CNum 4] CNull) = [CNull; CBool true; CNum 4].
Proof. reflexivity. Qed.
Print Assumptions C73_chain.
Print Assumptions C73_braces_keep_all.

(** ** C74: include *)
(** The file that is opened has quotes in its name, for every include of every document. *)
Theorem C74_quoted_name : forall D (dec : list N -> option D) text vs n v method file, hocon_p dec text 0 = Success vs n -> In v vs ->
  inside (CIncl method file) v -> exists name, file = [34%N] ++ name ++ [34%N].
Proof.
  intros D dec text vs n v method file E Hi Hd. pose proof (w_hocon dec text) as W. rewrite E in W. destruct W as [_ W].
  apply (proj1 (Forall_forall _ _) W) in Hi. apply (clean_inside Hd) in Hi. inv Hi. eexists. reflexivity.
Qed.
(** If there is no such file, the include panics. *)
Theorem C74_missing_file_panics : forall D (dec : list N -> option D) env files fuel method name src, files ([34%N] ++ name ++ [34%N]) = None ->
  resolve dec env files (S fuel) (CIncl method ([34%N] ++ name ++ [34%N])) src = RPanic.
Proof. intros. now apply include_missing_panics. Qed.
(** Hence the contents of the named file are not loaded. *)
Definition one_file (name : list N) : option (list N) := if list_eq_dec N.eq_dec name (bs "conf") then Some (bs "a = true") else None.
Theorem C74_include_refuted : (exists c, load (bs "a = true") = ROk (Some c)) /\ one_file (bs "conf") = Some (bs "a = true") /\
  forall fuel, parse_from_string xdec nothing one_file (S fuel) (bs "include file(" ++ [34]%N ++ bs "conf" ++ [34]%N ++ bs ")") = RPanic.
Proof.
  split; [eexists; vm_compute; reflexivity|]. split; [reflexivity|]. intros fuel. unfold parse_from_string, parse_from_string_with.
  replace (hocon_p xdec _ 0) with (Success (I := N) [CIncl (D := list N) (bs "file") ([34%N] ++ bs "conf" ++ [34%N])] 20) by (vm_compute; reflexivity).
  unfold resolve_stage0. now rewrite C74_missing_file_panics.
Qed.
(** A document with two includes, whose files are not there. *)
Example C74_example : let text := bs "include file(" ++ [34]%N ++ bs "a" ++ [34]%N ++ bs ")include url(" ++ [34]%N ++ bs "b" ++ [34]%N ++ bs ")" in
  hocon_p xdec text 0 = Success (I := N) [CIncl (D := list N) (bs "file") [34; 97; 34]%N; CIncl (bs "url") [34; 98; 34]%N] 33 /\
  inside (CIncl (D := list N) (bs "file") [34; 97; 34]%N) (CIncl (bs "file") [34; 97; 34]%N) /\ one_file ([34]%N ++ bs "conf" ++ [34]%N) = None.
Proof. cbv zeta. split; [vm_compute; reflexivity|]. split; [constructor|vm_compute; reflexivity]. Qed.
Print Assumptions C74_quoted_name.
Print Assumptions C74_missing_file_panics.
Print Assumptions C74_include_refuted.

(** ** C75: resolution leaves a configuration without references unchanged *)
Theorem C75_unchanged : forall D (dec : list N -> option D) env files (v src : cv D), noref v ->
  exists n, forall fuel, n <= fuel -> resolve dec env files fuel v (Some src) = ROk v.
Proof. intros D dec env files v src H. destruct (noref_settles dec env files H) as [S _]. apply S. Qed.
Example C75_case : noref (D := nat) (CObj [(bs "a", CLink (CNum 1) (CObj [(bs "b", CArr [CNull; CStr (bs "x")])]))]).
Proof. repeat constructor. Qed.
Print Assumptions C75_unchanged.

(** ** C76: the iteration order of hash maps *)
(** Merging does not depend on it ... *)
Theorem C76_merge_order : forall D (a a' b b' : list (list N * cv D)), NoDup (map fst a) -> NoDup (map fst b) -> Permutation a a' -> Permutation b b' ->
  exists m m', merge_with (CObj a) (CObj b) = CObj m /\ merge_with (CObj a') (CObj b') = CObj m' /\ forall k, hm_get m k = hm_get m' k.
Proof.
  intros D a a' b b' Na Nb Pa Pb. destruct (C50_keywise a b Nb) as (m & Em & Gm).
  assert (Nb' : NoDup (map fst b')) by (eapply Permutation_NoDup; [apply Permutation_map, Pb|exact Nb]).
  destruct (C50_keywise a' b' Nb') as (m' & Em' & Gm'). exists m, m'. split; [exact Em|]. split; [exact Em'|]. intros k.
  rewrite Gm, Gm'. rewrite (perm_get Pa Na k), (perm_get Pb Nb k). reflexivity.
Qed.
(** ... but the expansion of dotted keys does: of x.y and x.y.z the one visited first survives. *)
Theorem C76_expansion_order_refuted : forall D (dec : list N -> option D) env files, exists m m' x x',
  Permutation m m' /\ NoDup (map fst m) /\ (forall fuel, resolve dec env files (S (S fuel)) (CObj m) None = ROk x) /\
  (forall fuel, resolve dec env files (S (S fuel)) (CObj m') None = ROk x') /\
  has_path x (bs "x.y.z") = ROk false /\ has_path x' (bs "x.y.z") = ROk true.
Proof.
  intros D dec env files. exists [(bs "x.y", CBool true); (bs "x.y.z", CBool false)], [(bs "x.y.z", CBool false); (bs "x.y", CBool true)].
  eexists _, _. split; [apply perm_swap|]. split; [repeat constructor; cbn; intuition discriminate|].
  split; [intros fuel; reflexivity|]. split; [intros fuel; reflexivity|]. split; vm_compute; reflexivity.
Qed.
Example C76_case : NoDup [bs "a"; bs "b"] /\ Permutation [(bs "a", CNull (D := nat)); (bs "b", CNull)] [(bs "b", CNull); (bs "a", CNull)].
Proof. split; [repeat constructor; cbn; intuition discriminate|apply perm_swap]. Qed.
Print Assumptions C76_merge_order.
Print Assumptions C76_expansion_order_refuted.

(** ** C77: no reference is left *)
Theorem C77_no_reference_left_partial : forall D (dec : list N -> option D) env files fuel (v x : cv D), simple_refs v ->
  resolve dec env files fuel v (Some v) = ROk x -> noref x.
Proof. intros D dec env files fuel v x H E. eapply resolve_noref; [exact H|exact H|exact E]. Qed.
(** A reference that falls back to an earlier reference leaves that one unresolved. *)
Theorem C77_no_reference_left_refuted : exists c, load (bs "b = true" ++ nl ++ bs "o { a = ${b}, a = ${?zz} }") = ROk (Some c) /\
  exists p m prev, get_value c (bs "o.a") = ROk (Some (CRef prev p m)) /\ p = bs "b".
Proof. eexists. split; [vm_compute; reflexivity|]. eexists _, _, _. split; [vm_compute; reflexivity|reflexivity]. Qed.
Example C77_case : simple_refs (D := nat) (CObj [(bs "b", CNum 1); (bs "a", CRef None (bs "b") false)]) /\
  resolve (D := nat) (fun _ => None) nothing nothing 5 (CObj [(bs "b", CNum 1); (bs "a", CRef None (bs "b") false)])
    (Some (CObj [(bs "b", CNum 1); (bs "a", CRef None (bs "b") false)])) = ROk (CObj [(bs "b", CNum 1); (bs "a", CNum 1)]).
Proof. split; [repeat constructor|vm_compute; reflexivity]. Qed.
Print Assumptions C77_no_reference_left_partial.
Print Assumptions C77_no_reference_left_refuted.
