(** C135: results and errors; further theorems on C01, C03, C17, C20 and C97. *)
From Verif Require Import Base Core Comb Closure Json Uri PropsI PropsP.
Set Implicit Arguments.
Local Open Scope string_scope.
Local Open Scope nat_scope.
Local Open Scope list_scope.

(** ** C135 *)
Definition one (b : bool) : nat := if b then 1 else 0.
(** An error is of exactly one of the five kinds. *)
Theorem C135_one_kind : forall I (e : perror I),
  one (is_expect e) + one (is_custom e) + one (is_mismatch e) + one (is_conversion e) + one (is_in_complete e) = 1.
Proof. intros I e. destruct e; reflexivity. Qed.
Print Assumptions C135_one_kind.
Definition fails_with {I A} (p : parser I A) (inp : list I) (off : nat) (kind : perror I -> bool) : Prop :=
  match p inp off with Failure e _ => kind e = true | _ => True end.
(** The kind says what happened: an element that is not in the class and text behind the end are mismatches; too little text is
    incomplete; a function that refused a value is a conversion; a test that refused it is custom; the name of a parser makes an error
    custom, an expectation makes it an expectation. *)
Theorem C135_kinds : forall I A B E (p : parser I A) f (g : A -> B + E) (t : A -> bool) k s inp off, off <= length inp ->
  fails_with (p_elm_pred_ref f) inp off is_mismatch /\
  fails_with p_end inp off is_mismatch /\
  fails_with (p_take k) inp off is_in_complete /\ fails_with (p_skip k) inp off is_in_complete /\
  (forall v n, p inp off = Success v n -> fails_with (p_map_res p g) inp off is_conversion /\ fails_with (p_filter p t) inp off is_custom) /\
  fails_with (p_name p s) inp off is_custom /\
  fails_with (p_expect p s) inp off is_expect.
Proof.
  intros I A B E p f g t k s inp off L. unfold fails_with. repeat apply conj.
  - unfold p_elm_pred_ref. rewrite ps_input_ok by exact L. destruct (skipn off inp) as [|x l]; [reflexivity|]. now destruct (f x).
  - unfold p_end. rewrite ps_input_ok by exact L. now destruct (skipn off inp).
  - unfold p_take. rewrite ps_input_ok by exact L. destruct (k <=? length (skipn off inp)); [now destruct (slice_with_len inp off k)|reflexivity].
  - unfold p_skip. rewrite ps_input_ok by exact L. now destruct (k <=? length (skipn off inp)).
  - intros v n H. unfold p_map_res, p_filter. rewrite H. split; [destruct (g v); [exact Logic.I|now rewrite ps_input_ok by exact L]|now destruct (t v)].
  - unfold p_name. destruct (p inp off) as [v n|e c| |]; try exact Logic.I. destruct (is_custom e) eqn:Q; [exact Q|reflexivity].
  - unfold p_expect. now destruct (p inp off).
Qed.
Print Assumptions C135_kinds.

(** map and map_err of a result: they respect identity and composition, do not get in the way of each other, leave the commit status
    alone, and map may change the length. *)
Theorem C135_map_laws : forall I A B C (o : outcome I A) (f : A -> nat -> B * nat) (g : B -> nat -> C * nat) (h h' : perror I -> perror I),
  pr_map (fun v n => (v, n)) o = o /\
  pr_map g (pr_map f o) = pr_map (fun v n => g (fst (f v n)) (snd (f v n))) o /\
  pr_map_err (fun e => e) o = o /\
  pr_map_err h' (pr_map_err h o) = pr_map_err (fun e => h' (h e)) o /\
  pr_map f (pr_map_err h o) = pr_map_err h (pr_map f o) /\
  (forall e c, o = Failure e c -> pr_map f o = Failure e c /\ pr_map_err h o = Failure (h e) c) /\
  (forall v n, o = Success v n -> pr_map_err h o = o).
Proof.
  intros I A B C o f g h h'. unfold pr_map, pr_map_err, pr_flat_map.
  destruct o as [v n|e c| |]; [destruct (f v n) as [b m] eqn:F|..]; repeat apply conj; try reflexivity; try discriminate; intros ? ? H; inv H; try split; reflexivity.
Qed.
Print Assumptions C135_map_laws.
(** Advancing a result is a map; success is what to_result returns as a value; a value or an error, not both. *)
Theorem C135_result : forall I A (o : outcome I A) n,
  advance_success n o = pr_map (fun v l => (v, l + n)) o /\
  (forall v, success o = Some v <-> to_result o = Some (inl v)) /\
  (forall v, to_result o = Some (inl v) <-> exists k, o = Success v k) /\
  (forall e, to_result o = Some (inr e) <-> exists c, o = Failure e c).
Proof.
  intros I A o n. destruct o as [v k|e c| |]; cbn; repeat apply conj; try reflexivity; intros; split; intros H; try congruence; try (destruct H; congruence); inv H; eauto.
Qed.
Print Assumptions C135_result.
(** parse of the trait: the value if there is one, and else one and the same custom error, whatever went wrong. *)
Theorem C135_pp_parse : forall I A (p : parser I A) inp,
  (forall v, pp_parse p inp = Some (inl v) <-> to_result (parse p inp) = Some (inl v)) /\
  (forall e, pp_parse p inp = Some (inr e) -> is_custom e = true /\ error_input e = Some None /\
    forall B (q : parser I B) inp' e', pp_parse q inp' = Some (inr e') -> e' = e) /\
  (pp_parse p inp = None <-> to_result (parse p inp) = None).
Proof.
  intros I A p inp. unfold pp_parse. destruct (parse p inp) as [v k|e c| |]; cbn; repeat apply conj; intros; try (split; intros H; congruence); try discriminate.
  inv H. repeat split. intros B q inp' e' H. destruct (parse q inp') as [v' k'|e1 c1| |]; congruence.
Qed.
Print Assumptions C135_pp_parse.
Example C135_example :
  fails_with (p_map_res (p_elm_ref_of (set_contains (bs "ab"))) (fun x : N => if (x =? chr "a")%N then inl x else inr tt)) (bs "b") 0 is_conversion /\
  pp_parse (p_elm_pred_ref is_ascii_digit) (bs "x") = Some (inr (Custom 0 None "Parse failed")) /\ pp_parse (p_elm_pred_ref is_ascii_digit) (bs "1") = Some (inl (chr "1")) /\
  pr_map (fun v n => (v + 1, n + 2)) (Success 3 4 : outcome N nat) = Success 4 6.
Proof. vm_compute. repeat split. Qed.

(** ** C03 *)
(** The failure that failed_lazy computes decides, by its commit status, whether the other alternative is tried. *)
Theorem C03_failed_lazy : forall I A (f : unit -> perror I * committed_status) (q : parser I A) inp off,
  p_or (p_failed_lazy f) q inp off = (if snd (f tt) then Failure (fst (f tt)) Committed else q inp off) /\
  p_failed_lazy f inp off = (p_failed (fst (f tt)) (snd (f tt)) : parser I A) inp off.
Proof. intros I A f q inp off. unfold p_or, p_failed_lazy, p_failed. destruct (f tt) as [e [|]]; split; reflexivity. Qed.
Print Assumptions C03_failed_lazy.
Example C03_failed_lazy_example :
  parse (p_or (p_failed_lazy (fun _ => (Incomplete, Uncommitted))) (p_successful 3)) (bs "") = Success 3 0 /\
  parse (p_or (p_failed_lazy (fun _ => (Incomplete, Committed))) (p_successful 3)) (bs "") = Failure Incomplete Committed.
Proof. split; reflexivity. Qed.

(** ** C17 *)
(** The chains with a default: the chain if there is one, the default without consuming anything if not even its first operand could be
    begun, and the failure if it was begun. *)
Theorem C17_chain0 : forall I A (p : parser I A) op x inp off,
  (forall v n, p_chain_left1 p op inp off = Success v n -> p_chain_left0 p op x inp off = Success v n /\ p_chain_right0 p op x inp off = Success v n) /\
  (forall e, p_chain_left1 p op inp off = Failure e Uncommitted -> p_chain_left0 p op x inp off = Success x 0 /\ p_chain_right0 p op x inp off = Success x 0) /\
  (forall e, p_chain_left1 p op inp off = Failure e Committed -> p_chain_left0 p op x inp off = Failure e Committed /\ p_chain_right0 p op x inp off = Failure e Committed).
Proof.
  intros I A p op x inp off. unfold p_chain_left0, p_chain_right0, p_or. change (p_chain_right1 p op inp off) with (p_chain_left1 p op inp off).
  repeat apply conj; intros; rewrite H; split; reflexivity.
Qed.
Print Assumptions C17_chain0.
Definition digit_value : parser N N := p_map (p_elm_pred_ref is_ascii_digit) (fun x => (x - 48)%N).
Definition minus_op : parser N (N -> N -> N) := p_map (p_elm_ref_of (set_contains (bs "-"))) (fun _ a b => (a - b)%N).
Example C17_chain0_example :
  parse (p_chain_right0 digit_value minus_op 7%N) (bs "9-3-1") = Success 5%N 5 /\ parse (p_chain_right0 digit_value minus_op 7%N) (bs "x") = Success 7%N 0 /\
  parse (p_chain_left0 digit_value minus_op 7%N) (bs "") = Success 7%N 0.
Proof. vm_compute. repeat split. Qed.

(** ** C20 *)
(** elm_any takes one element, whichever it is. *)
Theorem C20_any : forall I (inp : list I) off x n, off <= length inp ->
  (p_elm_any_ref inp off = Success x n <-> n = 1 /\ exists l, skipn off inp = x :: l) /\ p_elm_any inp off = p_elm_any_ref inp off /\
  (off < length inp -> exists y, nth_error inp off = Some y /\ p_elm_any_ref inp off = Success y 1).
Proof.
  intros I inp off x n L. unfold p_elm_any, p_map, p_elm_any_ref, p_elm_pred_ref. rewrite ps_input_ok by exact L.
  assert (NT : nth_error inp off = hd_error (skipn off inp)).
  { clear. revert inp. induction off as [|off IH]; intros inp; [now destruct inp|]. destruct inp as [|y inp]; [reflexivity|apply IH]. }
  rewrite NT. assert (LN := skipn_length off inp). destruct (skipn off inp) as [|y l]; cbn [hd_error length] in *.
  - repeat apply conj; [discriminate|intros [_ [l0 H0]]; discriminate|reflexivity|lia].
  - repeat apply conj; [intros K; inv K; eauto|intros [-> [l' K]]; inv K; reflexivity|reflexivity|intros _; eauto].
Qed.
Print Assumptions C20_any.
Example C20_any_example : parse p_elm_any_ref [1114111%N] = Success 1114111%N 1 /\ parse p_elm_any (bs "xy") = Success (chr "x") 1.
Proof. split; reflexivity. Qed.

(** ** C01 *)
(** The length that regex reports is the number of bytes of the text in UTF-8. *)
Theorem C01_regex_bytes : forall s, utf8_len s = length (flat_map utf8_encode s).
Proof.
  induction s as [|c s IH]; [reflexivity|]. cbn [flat_map]. rewrite app_length, <- IH. unfold utf8_len. cbn [fold_right]. f_equal.
  unfold utf8_len_char, utf8_encode. destruct (c <? 128)%N, (c <? 2048)%N, (c <? 65536)%N; reflexivity.
Qed.
Print Assumptions C01_regex_bytes.
Example C01_regex_bytes_example : utf8_len [97; 2047; 2048; 65536]%N = 10.
Proof. reflexivity. Qed.

(** ** C97 *)
(** Conversions of a path change its kind and nothing else; they can be undone only by knowing the kind. *)
Theorem C97_conversions : forall p parts,
  kind (to_rootless p) = kind (RootlessPath []) /\ kind (to_absolute p) = kind (AbsolutePath []) /\
  show_path (to_rootless p) = show_path p /\ show_path (to_absolute p) = show_path p /\
  path_is_empty (to_rootless p) = path_is_empty p /\
  to_rootless (to_absolute p) = to_rootless p /\ to_absolute (to_rootless p) = to_absolute p /\
  (p <> EmptyPath -> to_rootless (path_add_parts p parts) = path_add_parts (to_rootless p) parts /\ to_absolute (path_add_parts p parts) = path_add_parts (to_absolute p) parts).
Proof.
  intros p parts. repeat apply conj; try reflexivity. intros Hp. revert p Hp. unfold path_add_parts. induction parts as [|x parts IH]; intros p Hp; [split; reflexivity|].
  cbn [fold_left]. assert (Hq : path_add_part p x <> EmptyPath) by (destruct p; [discriminate..|congruence]). destruct (IH (path_add_part p x) Hq) as [I1 I2]. rewrite I1, I2.
  destruct p; try congruence; split; reflexivity.
Qed.
Print Assumptions C97_conversions.
Example C97_conversions_example : to_rootless (AbsolutePath [bs "/"; bs "a"]) = RootlessPath [bs "/"; bs "a"] /\ kind (to_rootless (AbsolutePath [bs "/"; bs "a"])) = 0.
Proof. split; reflexivity. Qed.
