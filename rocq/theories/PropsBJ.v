(** C155: how much the calculator writes to the log. *)
From Verif Require Import PropsI Hoare Runs JsonSpec JsonFacts CalcSpec CalcFacts Log LogToys LogCalc PropsBI.
From Verif Require Import Base Core Comb Closure Text Calc.
From Coq Require Import Sorting.Sorted.
Set Implicit Arguments.
Local Open Scope string_scope.
Local Open Scope nat_scope.
Local Open Scope list_scope.

(** The characters of a log. *)
Definition chars (w : list Log.line) : nat := list_sum (map (fun l => length (l_text l)) w).
Lemma sum_incl : forall (f : nat -> nat) ps qs, NoDup ps -> incl ps qs -> list_sum (map f ps) <= list_sum (map f qs).
Proof.
  intros f. induction ps as [|i t IH]; intros qs H L; [cbn; lia|]. inversion H as [|? ? Hi Ht]; subst. destruct (in_split i qs (L i (or_introl eq_refl))) as (q1 & q2 & ->).
  specialize (IH (q1 ++ q2) Ht). rewrite map_app, list_sum_app. cbn [map list_sum fold_right] in *. change (fold_right plus 0 (map f t)) with (list_sum (map f t)). change (fold_right plus 0 (map f q2)) with (list_sum (map f q2)).
  enough (incl t (q1 ++ q2)) as Hq by (specialize (IH Hq); rewrite map_app, list_sum_app in IH; lia). intros j Hj. assert (K : In j (q1 ++ i :: q2)) by (apply L; now right).
  apply in_app_or in K as [K|[K|K]]; apply in_or_app; [now left| |now right]. subst. contradiction.
Qed.
Lemma sum_le : forall (f g : nat -> nat) ps, (forall i, In i ps -> f i <= g i) -> list_sum (map f ps) <= list_sum (map g ps).
Proof.
  intros f g ps. induction ps as [|i t IH]; intros H; [cbn; lia|]. cbn. pose proof (H i (or_introl eq_refl)). assert (list_sum (map f t) <= list_sum (map g t)) by (apply IH; intros; apply H; now right). unfold list_sum in *. lia.
Qed.
Lemma sum_all : forall a b n k, 2 * list_sum (map (fun i => 15 + (a * (n + k - i) + b)) (seq k (S n))) = 2 * S n * (15 + b) + a * n * S n.
Proof.
  intros a b. induction n as [|n IH]; intros k.
  - cbn. replace (k - k) with 0 by lia. nia.
  - change (seq k (S (S n))) with (k :: seq (S k) (S n)). rewrite map_cons. cbn [list_sum fold_right]. fold (list_sum (map (fun i => 15 + (a * (S n + k - i) + b)) (seq (S k) (S n)))).
    specialize (IH (S k)). replace (n + S k) with (S n + k) in IH by lia. replace (S n + k - k) with (S n) by lia. rewrite Nat.mul_add_distr_l, IH. nia.
Qed.

(** ** A text of nothing but opening parentheses *)
Section Parens.
Variable D : Type.
Variable nd : N -> bool.
Hypothesis nd_ascii : ascii_class nd.
Variable dec : list N -> D + unit.
Variable on : list N -> list N.
Definition parens (n : nat) : list N := repeat (chr "(") n.
Lemma value_line : forall pre n, exists e, wc_value nd dec on (pre ++ parens n) (length pre) = (Failure e false, [rest_line on (pre ++ parens n) (length pre)]).
Proof.
  intros pre n. assert (R : rej (c_value nd dec) (parens n) false).
  { apply r_cvalue. destruct n as [|n]; [exact I|]. cbn. destruct (nd (chr "(")) eqn:E; [|exact E]. apply nd_ascii in E; [|reflexivity]. unfold digit, chr in E. cbn in E. lia. }
  destruct (R pre) as [e E]. exists e. pose proof (@e_value D nd dec on (pre ++ parens n) (length pre)) as V. rewrite E in V. destruct (wc_value nd dec on (pre ++ parens n) (length pre)) as [o w] eqn:W. cbn [fst] in V. subst o.
  f_equal. unfold wc_value, w_map, w_one, w_regex in W. rewrite input_at in W. cbn in W. injection W as _ <-. unfold rest_line. rewrite skipn_app, skipn_all, Nat.sub_diag. reflexivity.
Qed.
Lemma additive_fails : forall g inp off e w, g inp off = (Failure e false, w) -> wc_additive g inp off = ((Failure e false : outcome N (cexpr D)), w).
Proof. intros g inp off e w E. unfold wc_additive, wc_multitive, w_chain_left1. now rewrite E. Qed.
Lemma paren_ws : forall n, no_ws (parens n).
Proof. intros [|n]; [exact I|]. cbn. unfold is_ws. cbn. intuition discriminate. Qed.
Lemma primary_line : forall n fuel pre, n < fuel ->
  exists e, wc_primary_fuel nd dec on fuel (pre ++ parens n) (length pre) = (Failure e false, map (rest_line on (pre ++ parens n)) (rev (seq (length pre) (S n)))).
Proof.
  induction n as [|n IH]; intros [|fuel] pre L; try lia; cbn [wc_primary_fuel].
  - assert (R1 : rej (p_or (p_elm_ref (chr "+")) (p_elm_ref (chr "-"))) (parens 0) false) by (apply r_or; now apply r_elm_ref).
    assert (R2 : rej (p_and (p_and c_space (p_elm_ref (chr "("))) c_space) (parens 0) false).
    { apply r_and1. change (parens 0) with ([] ++ parens 0). eapply r_and2; [apply a_cspace; [constructor|apply paren_ws]|]. now apply r_elm_ref. }
    destruct (R1 pre) as [e1 E1]. destruct (R2 pre) as [e2 E2]. destruct (value_line pre 0) as [e V]. exists e.
    unfold wc_primary_step, wc_unary, wc_primary0, w_or, w_map_panic, w_map, w_one, w_and, w_surround, w_skip_left, w_two, w_leaf. rewrite E1, E2. unfold p_map_panic, p_and, p_map, p_skip_left. cbn [app]. fold (wc_value nd dec on). rewrite V. reflexivity.
  - assert (R1 : rej (p_or (p_elm_ref (chr "+")) (p_elm_ref (chr "-"))) (parens (S n)) false) by (apply r_or; apply r_elm_ref; cbn; discriminate).
    assert (R2 : exists v, acc (p_and (p_and c_space (p_elm_ref (chr "("))) c_space) [chr "("] (parens n) v).
    { eexists. change [chr "("] with (([] ++ [chr "("]) ++ []). eapply a_and; [eapply a_and; [apply a_cspace; [constructor|]|apply a_elm_ref]|apply a_cspace; [constructor|apply paren_ws]]. cbn. unfold is_ws. cbn. intuition discriminate. }
    destruct (R1 pre) as [e1 E1]. destruct R2 as [v R2]. specialize (R2 pre). destruct (value_line pre (S n)) as [e V]. exists e.
    destruct (IH fuel (pre ++ [chr "("]) ltac:(lia)) as [e2 E2]. rewrite <- app_assoc in E2. apply additive_fails in E2. rewrite app_length in E2. change (([chr "("] ++ parens n)) with (parens (S n)) in E2, R2.
    unfold wc_primary_step, wc_unary, wc_primary0, w_or, w_map_panic, w_map, w_one, w_and, w_surround, w_skip_left, w_skip_right, w_two, w_leaf. rewrite E1, R2. cbn [app]. rewrite E2. unfold p_map_panic, p_and, p_map, p_skip_left, p_skip_right. cbn [app].
    rewrite V. f_equal. change (seq (length pre) (S (S n))) with (length pre :: seq (S (length pre)) (S n)). cbn [rev]. rewrite map_app. cbn [List.length]. replace (length pre + 1) with (S (length pre)) by lia. reflexivity.
Qed.
Lemma calculator_line : forall n, exists e, wc_calculator nd dec on (parens n) 0 = (Failure e false, map (rest_line on (parens n)) (rev (seq 0 (S n)))).
Proof.
  intros n. destruct (@primary_line n (S (length (parens n))) []) as [e E]; [unfold parens; rewrite repeat_length; lia|]. cbn [app List.length] in E. exists e.
  unfold wc_calculator, w_skip_right, w_two. cbn [List.length] in E. apply additive_fails in E. rewrite E. reflexivity.
Qed.
End Parens.

(** ** 1+1+...+1 *)
Fixpoint sums (n : nat) : list N := match n with 0 => bs "1" | S n => chr "1" :: chr "+" :: sums n end.
Lemma sums_length : forall n, length (sums n) = 2 * n + 1.
Proof. induction n as [|n IH]; [reflexivity|]. cbn [sums List.length]. lia. Qed.
Lemma sums_end : forall n, sums (S n) = sums n ++ [] ++ bs "+" ++ [] ++ bs "1".
Proof. induction n as [|n IH]; [reflexivity|]. change (sums (S (S n))) with (chr "1" :: chr "+" :: sums (S n)). rewrite IH at 1. reflexivity. Qed.
Lemma sums_places : forall nd, ascii_class nd -> forall n i s, find_decimal nd (skipn i (sums n)) = Some s -> exists k, i = 2 * k /\ k <= n.
Proof.
  intros nd H. induction n as [|n IH]; intros [|[|i]] s E; try (exists 0; lia).
  - cbn in E. discriminate.
  - destruct i; discriminate.
  - exfalso. cbn [sums skipn] in E. unfold find_decimal in E. cbn [span] in E. destruct (nd (chr "+")) eqn:K; [|discriminate]. apply H in K; [|reflexivity]. unfold digit, chr in K. cbn in K. lia.
  - cbn [sums skipn] in E. destruct (IH _ _ E) as (k & -> & L). exists (S k). lia.
Qed.
Fixpoint sum_tree {D} (d : D) (n : nat) : cexpr D := match n with 0 => CValue d | S n => CAdd (sum_tree d n) (CValue d) end.
Lemma sum_numbers : forall D (d : D) n, length (numbers (sum_tree d n)) = S n.
Proof. induction n as [|n IH]; [reflexivity|]. cbn [sum_tree numbers]. rewrite app_length, IH. cbn. lia. Qed.
Lemma sum_grammar : forall D (dec : list N -> D + unit) d n, dec (bs "1") = inl d -> g_expr dec (sum_tree d n) (sums n).
Proof.
  intros D dec d n H. assert (T : g_term dec (CValue d) (bs "1")).
  { apply gt_one, gf_num; [|exact H]. left. split; [|discriminate]. repeat constructor; cbn; discriminate. }
  induction n as [|n IH]; [now apply ge_one|]. rewrite sums_end. cbn [sum_tree]. apply ge_add; [exact IH|constructor|constructor|exact T].
Qed.
Lemma evens_few : forall m ps a, StronglySorted lt ps -> Forall (fun i => exists k, i = 2 * k /\ a <= k < a + m) ps -> length ps <= m.
Proof.
  induction m as [|m IH]; intros ps a S F.
  - destruct ps as [|i t]; [cbn; lia|]. inversion F as [|? ? (k & _ & ?) _]; subst. lia.
  - destruct ps as [|i t]; [cbn; lia|]. inversion F as [|? ? (k & -> & ?) Ft]; subst. inversion S as [|? ? St Lt]; subst. cbn [List.length]. enough (length t <= m) by lia. apply (IH t (Datatypes.S a) St).
    rewrite Forall_forall in *. intros j Hj. destruct (Ft j Hj) as (k' & -> & ?). specialize (Lt _ Hj). exists k'. lia.
Qed.
Lemma evens_all : forall m ps a, StronglySorted lt ps -> Forall (fun i => exists k, i = 2 * k /\ a <= k < a + m) ps -> length ps = m -> ps = map (fun k => 2 * k) (seq a m).
Proof.
  induction m as [|m IH]; intros ps a S F L.
  - now destruct ps.
  - destruct ps as [|i t]; [discriminate|]. inversion F as [|? ? (k & -> & ?) Ft]; subst. inversion S as [|? ? St Lt]; subst. cbn [List.length] in L. injection L as L.
    assert (Ft' : Forall (fun i => exists k', i = 2 * k' /\ Datatypes.S k <= k' < Datatypes.S k + (a + m - k)) t).
    { rewrite Forall_forall in *. intros j Hj. destruct (Ft j Hj) as (k' & -> & ?). specialize (Lt _ Hj). exists k'. lia. }
    pose proof (@evens_few _ _ _ St Ft'). assert (k = a) as -> by lia. cbn [seq map]. f_equal. apply (IH t (Datatypes.S a) St); [|exact L]. replace (a + m - a) with m in Ft' by lia. exact Ft'.
Qed.

(** ** C155 *)
Section Size.
Variable D : Type.
Variable nd : N -> bool.
Variable dec : list N -> D + unit.
Variable on : list N -> list N.
Lemma chars_lines : forall text ps, chars (map (rest_line on text) ps) = list_sum (map (fun i => 15 + length (on (skipn i text))) ps).
Proof. intros text ps. unfold chars. now rewrite map_map. Qed.
End Size.
(** If the text that characters are shown as is at most [a] times as long as they are and [b] besides, the log is at most so long, which is of the order of the square of the text. *)
Theorem C155_square : forall D nd (dec : list N -> D + unit) on text a b, ascii_class nd -> (forall l, length (on l) <= a * length l + b) ->
  2 * chars (snd (wc_calculator nd dec on text 0)) <= 2 * S (length text) * (15 + b) + a * length text * S (length text).
Proof.
  intros D nd dec on text a b H Hon. destruct (proj1 (@C154_once D nd dec on text H)) as (ps & E & N & F). fold (rest_line on text) in E. change (snd (wc_calculator nd dec on text 0) = map (rest_line on text) ps) in E. rewrite E, chars_lines.
  rewrite <- (sum_all a b (length text) 0). apply Nat.mul_le_mono_l. etransitivity; [|apply sum_incl; [exact N|]].
  - apply sum_le. intros i _. specialize (Hon (skipn i text)). rewrite skipn_length in Hon. rewrite Nat.add_0_r. lia.
  - intros i Hi. apply in_seq. rewrite Forall_forall in F. specialize (F _ Hi). lia.
Qed.
Lemma rev_seq : forall n, rev (seq 0 (S n)) = map (fun i => n - i) (seq 0 (S n)).
Proof.
  induction n as [|n IH]; [reflexivity|]. transitivity (S n :: rev (seq 0 (S n))); [now rewrite (seq_S (S n)), rev_app_distr|]. rewrite IH. change (seq 0 (S (S n))) with (0 :: seq 1 (S n)). now rewrite <- seq_shift, map_cons, map_map.
Qed.
Lemma skipn_parens : forall n i, i <= n -> skipn (n - i) (parens n) = parens i.
Proof. induction n as [|n IH]; intros i L; [now replace i with 0 by lia|]. destruct (Nat.eq_dec i (S n)) as [->|K]; [now rewrite Nat.sub_diag|]. replace (S n - i) with (S (n - i)) by lia. apply IH. lia. Qed.
(** Texts of opening parentheses reach the bound: they are rejected, and leave a line for every place, the last one first. *)
Theorem C155_reached : forall D nd (dec : list N -> D + unit) on n, ascii_class nd ->
  snd (wc_calculator nd dec on (repeat (chr "(") n) 0) = map (fun i => Line LDebug (bs "regex: input = " ++ on (repeat (chr "(") i))) (seq 0 (S n)) /\
  forall a b, (forall l, length (on l) = a * length l + b) -> 2 * chars (snd (wc_calculator nd dec on (repeat (chr "(") n) 0)) = 2 * S n * (15 + b) + a * n * S n.
Proof.
  intros D nd dec on n H. destruct (@calculator_line D nd H dec on n) as [e E]. change (repeat (chr "(") n) with (parens n). rewrite E. cbn [fst snd]. split.
  - rewrite rev_seq, map_map. apply map_ext_in. intros i Hi. apply in_seq in Hi. unfold rest_line. rewrite skipn_parens by lia. reflexivity.
  - intros a b Hon. rewrite chars_lines, map_rev. assert (R : forall l, list_sum (rev l) = list_sum l).
    { induction l as [|x l IH]; [reflexivity|]. cbn [rev]. rewrite list_sum_app, IH. cbn. unfold list_sum. lia. }
    rewrite R. rewrite <- (sum_all a b n 0). do 2 f_equal. apply map_ext_in. intros i Hi. rewrite Hon, skipn_length. unfold parens. rewrite repeat_length. lia.
Qed.
(** Accepted texts too: n additions leave n + 1 lines, at every other place, and at least the square of n + 1 in characters. *)
Theorem C155_accepted : forall D nd (dec : list N -> D + unit) d on n, ascii_class nd -> dec (bs "1") = inl d -> (forall l, length l <= length (on l)) ->
  exists e, fst (wc_calculator nd dec on (sums n) 0) = Success e (2 * n + 1) /\ length (sums n) = 2 * n + 1 /\
    snd (wc_calculator nd dec on (sums n) 0) = map (fun k => Line LDebug (bs "regex: input = " ++ on (sums (n - k)))) (seq 0 (S n)) /\
    S n * S n + 15 * S n <= chars (snd (wc_calculator nd dec on (sums n) 0)).
Proof.
  intros D nd dec d on n H Hd Hon. pose proof (calc_complete nd H (sum_grammar dec n Hd)) as E. pose proof (C154_outcome nd dec on (sums n)) as O. rewrite E, sums_length in O. exists (sum_tree d n). split; [exact O|]. split; [apply sums_length|].
  assert (W : snd (wc_calculator nd dec on (sums n) 0) = map (rest_line on (sums n)) (map (fun k => 2 * k) (seq 0 (S n)))).
  { destruct (wc_calculator nd dec on (sums n) 0) as [o w] eqn:Ew. cbn [fst snd] in *. subst o. destruct (@C154_numbers D nd dec on _ _ _ _ H Ew) as (ps & -> & S & F2). change (map (rest_line on (sums n)) ps = map (rest_line on (sums n)) (map (fun k => 2 * k) (seq 0 (Datatypes.S n)))). f_equal.
    apply evens_all; [exact S| |rewrite <- (sum_numbers d n); clear -F2; induction F2; cbn; congruence]. clear -F2 H. induction F2 as [|i x ps xs (s & Fs & _) _ IH]; [constructor|]. constructor; [|exact IH]. destruct (sums_places H n i Fs) as (k & -> & L). exists k. lia. }
  assert (P : forall k m, skipn (2 * k) (sums (k + m)) = sums m).
  { induction k as [|k IH]; intros m; [reflexivity|]. replace (2 * S k) with (S (S (2 * k))) by lia. apply IH. }
  rewrite W. split.
  - rewrite map_map. apply map_ext_in. intros k Hk. apply in_seq in Hk. unfold rest_line. specialize (P k (n - k)). replace (k + (n - k)) with n in P by lia. now rewrite P.
  - rewrite chars_lines, map_map. clear -Hon P.
    assert (K : list_sum (map (fun k => 15 + (2 * (n - k) + 1)) (seq 0 (S n))) = S n * S n + 15 * S n).
    { pose proof (sum_all 2 1 n 0) as A. rewrite (map_ext _ (fun i => 15 + (2 * (n + 0 - i) + 1))); [nia|]. intros i. now rewrite Nat.add_0_r. }
    rewrite <- K. apply sum_le. intros k Hk. apply in_seq in Hk. specialize (P k (n - k)). replace (k + (n - k)) with n in P by lia. rewrite P. specialize (Hon (sums (n - k))). rewrite sums_length in Hon. lia.
Qed.

(** *** Cases *)
Definition size_calc (s : list N) := (length s, chars (snd (wc_calculator nd0 dec0 (fun l => bs """" ++ l ++ bs """") s 0))).
Example C155_parens : map (fun n => size_calc (repeat (chr "(") n)) [0; 1; 2; 10] = [(0, 17); (1, 35); (2, 54); (10, 242)] /\ ascii_class nd0.
Proof. split; [vm_compute; reflexivity|exact nd0_ok]. Qed.
Example C155_sums : map size_calc [bs "1"; bs "1+1"; bs "1+1+1"; bs "(1+1)*1"] = [(1, 18); (3, 38); (5, 60); (7, 62)] /\ sums 2 = bs "1+1+1" /\ dec0 (bs "1") = inl 1%Z /\ forall l, length l <= length (bs """" ++ l ++ bs """").
Proof. split; [vm_compute; reflexivity|]. split; [reflexivity|]. split; [reflexivity|]. intros l. rewrite !app_length. lia. Qed.
Print Assumptions C155_square.
Print Assumptions C155_reached.
Print Assumptions C155_accepted.
