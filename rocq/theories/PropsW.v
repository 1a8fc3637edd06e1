(** C109-C110: durations with concrete decimals. *)
From Coq Require Import ZArith.
From Verif Require Import PropsH.
From Verif Require Import Base Core Comb Closure Text Json JsonSpec Hocon HoconSpec HoconComplete HoconNumber.
Set Implicit Arguments.
Local Open Scope string_scope.
Local Open Scope nat_scope.
Local Open Scope list_scope.

(** ** C109: a duration lasts as long as it says *)
(** [n] nanoseconds are exactly [d] times the unit. *)
Definition lasts (d : decimal) (u : time_unit) (n : N) : Prop := d_neg d = false /\ (n * ten_to (d_scale d) = d_mant d * nanos_per u)%N.

Lemma ten_pos : forall k, (0 < ten_to k)%N.
Proof. intros k. unfold ten_to. assert (10 ^ N.of_nat k <> 0)%N by (apply N.pow_nonzero; discriminate). lia. Qed.
Lemma trunc_spec : forall d, (d_trunc d * ten_to (d_scale d) <= d_mant d < (d_trunc d + 1) * ten_to (d_scale d))%N.
Proof.
  intros d. unfold d_trunc. pose proof (ten_pos (d_scale d)) as H. set (t := ten_to (d_scale d)) in *.
  assert (Ht : t <> 0%N) by lia. pose proof (N.div_mod (d_mant d) t Ht). pose proof (N.mod_lt (d_mant d) t Ht).
  remember (d_mant d / t)%N as q. remember (d_mant d mod t)%N as r. rewrite N.mul_add_distr_r. rewrite (N.mul_comm q t). lia.
Qed.
Lemma std_trunc : forall w d u, d_neg d = false -> (d_trunc d < 2 ^ 64)%N -> (d_trunc d * seconds_per u < 2 ^ 64)%N ->
  as_std_duration w (CDur d u) = ROk (Some (d_trunc d * nanos_per u)%N).
Proof.
  intros w d u Hn H1 H2. cbn [as_std_duration]. rewrite C71_conversion_exact with (n := d_trunc d); [reflexivity| |exact H1|exact H2].
  unfold d_to_u64. rewrite Hn. now destruct (N.ltb_spec (d_trunc d) (2 ^ 64)); [|lia].
Qed.
(** What is returned is a whole number of units, and the largest that is not longer. *)
Theorem C109_std_rounds_down : forall w d u, d_neg d = false -> (d_trunc d < 2 ^ 64)%N -> (d_trunc d * seconds_per u < 2 ^ 64)%N ->
  exists k, as_std_duration w (CDur d u) = ROk (Some (k * nanos_per u)%N) /\
    (k * nanos_per u * ten_to (d_scale d) <= d_mant d * nanos_per u < (k + 1) * nanos_per u * ten_to (d_scale d))%N.
Proof.
  intros w d u Hn H1 H2. exists (d_trunc d). split; [now apply std_trunc|]. pose proof (trunc_spec d).
  assert (0 < nanos_per u)%N by (destruct u; reflexivity). nia.
Qed.
(** Whole numbers are exact. *)
Theorem C109_std_whole_partial : forall w d u k, d_neg d = false -> (d_mant d = k * ten_to (d_scale d))%N -> (k < 2 ^ 64)%N -> (k * seconds_per u < 2 ^ 64)%N ->
  exists n, as_std_duration w (CDur d u) = ROk (Some n) /\ lasts d u n.
Proof.
  intros w d u k Hn Hk H1 H2. assert (E : d_trunc d = k).
  { unfold d_trunc. rewrite Hk. apply N.div_mul. pose proof (ten_pos (d_scale d)). lia. }
  exists (k * nanos_per u)%N. split; [rewrite <- E in *; now apply std_trunc|]. split; [exact Hn|]. rewrite Hk. lia.
Qed.
(** A fraction of a unit is lost even when it is a whole number of nanoseconds. *)
Theorem C109_std_exact_refuted : forall w, exists d u n m, lasts d u n /\ as_std_duration w (CDur d u) = ROk (Some m) /\ m <> n.
Proof. intros w. exists (Dec false 15 1), USeconds, 1500000000%N, 1000000000%N. split; [split; vm_compute; reflexivity|]. split; [destruct w; vm_compute; reflexivity|discriminate]. Qed.
(** The same for chrono's durations; here too long durations panic. *)
Theorem C109_chrono : forall d u x, d_to_i64 d = Some x ->
  to_duration d u = if (Z.abs (x * Z.of_N (nanos_per u)) <=? chrono_max)%Z then ROk (Some (x * Z.of_N (nanos_per u))%Z) else RPanic.
Proof.
  intros d u x E. unfold to_duration. rewrite E.
  assert (B : (- 2 ^ 63 <= x < 2 ^ 63)%Z).
  { unfold d_to_i64 in E. match type of E with (if ?c then _ else _) = _ => destruct c eqn:Ec; [|discriminate] end. inv E.
    apply andb_prop in Ec. destruct Ec as [H1 H2]. apply Z.leb_le in H1. apply Z.ltb_lt in H2. now split. }
  assert (N1 : forall z, chrono_new z = if (Z.abs z <=? chrono_max)%Z then ROk z else RPanic).
  { intros z. unfold chrono_new. destruct (Z.leb_spec (Z.abs z) chrono_max), (Z.leb_spec (- chrono_max) z), (Z.leb_spec z chrono_max); cbn [andb]; try reflexivity; exfalso; lia. }
  unfold chrono_max in *. unfold giga. assert (M : forall k, (0 < k <= 86400)%Z -> rbind (i64_mul x k) (fun s => chrono_new (s * Z.of_N 1000000000)) =
    if (Z.abs (x * (k * 1000000000)) <=? (2 ^ 63 - 1) * 1000000)%Z then ROk (x * (k * 1000000000))%Z else RPanic).
  { intros k Hk. unfold i64_mul. change (Z.of_N 1000000000) with 1000000000%Z.
    destruct (Z.leb_spec (- 2 ^ 63) (x * k)), (Z.ltb_spec (x * k) (2 ^ 63)); cbn [andb rbind].
    - rewrite N1. now replace (x * k * 1000000000)%Z with (x * (k * 1000000000))%Z by lia.
    - destruct (Z.leb_spec (Z.abs (x * (k * 1000000000))) ((2 ^ 63 - 1) * 1000000)); [|reflexivity]. exfalso. replace (x * (k * 1000000000))%Z with (x * k * 1000000000)%Z in * by lia. lia.
    - destruct (Z.leb_spec (Z.abs (x * (k * 1000000000))) ((2 ^ 63 - 1) * 1000000)); [|reflexivity]. exfalso. replace (x * (k * 1000000000))%Z with (x * k * 1000000000)%Z in * by lia. lia.
    - exfalso. lia. }
  destruct u; cbn [nanos_per].
  - rewrite M by lia. change (Z.of_N (86400 * (1000 * 1000 * 1000))) with (86400 * 1000000000)%Z. now destruct (_ <=? _)%Z.
  - rewrite M by lia. change (Z.of_N (3600 * (1000 * 1000 * 1000))) with (3600 * 1000000000)%Z. now destruct (_ <=? _)%Z.
  - change (Z.of_N 1000) with 1000%Z. destruct (Z.leb_spec (Z.abs (x * 1000)) ((2 ^ 63 - 1) * 1000000)); [reflexivity|]. exfalso. lia.
  - rewrite N1. change (Z.of_N (1000 * 1000)) with 1000000%Z. now destruct (_ <=? _)%Z.
  - rewrite M by lia. change (Z.of_N (60 * (1000 * 1000 * 1000))) with (60 * 1000000000)%Z. now destruct (_ <=? _)%Z.
  - change (Z.of_N 1) with 1%Z. rewrite Z.mul_1_r. destruct (Z.leb_spec (Z.abs x) ((2 ^ 63 - 1) * 1000000)); [reflexivity|]. exfalso. lia.
  - rewrite N1. change (Z.of_N (1000 * 1000 * 1000)) with (Z.of_N 1000000000). now destruct (_ <=? _)%Z.
Qed.
(** The text of a duration: digits, perhaps a point and digits, a space and a unit.  Its document is read, and the duration is that of the digits before
    the point. *)
Lemma split_digits : forall i, Forall digit i -> d_split i = (i, None).
Proof.
  intros i H. induction H as [|x i Hx _ IH]; [reflexivity|]. cbn [d_split]. rewrite IH. unfold digit in Hx. destruct (N.eqb_spec x (chr ".")) as [E|]; [change (chr ".") with 46%N in E; lia|reflexivity].
Qed.
Lemma split_point : forall i f, Forall digit i -> d_split (i ++ bs "." ++ f) = (i, Some f).
Proof.
  intros i f H. induction H as [|x i Hx _ IH]; [reflexivity|]. cbn [app d_split]. rewrite IH. unfold digit in Hx. destruct (N.eqb_spec x (chr ".")) as [E|]; [change (chr ".") with 46%N in E; lia|reflexivity].
Qed.
Definition number_text (i f s : list N) : Prop := g_int i /\ Forall digit f /\ length (i ++ f) <= 28 /\ s = i ++ match f with [] => [] | _ => bs "." ++ f end.
Lemma g_int_all : forall i, g_int i -> Forall digit i /\ i <> [].
Proof.
  intros i [->|(x & t & -> & Hx & Ht)]; [split; [|discriminate]|split; [|discriminate]].
  - repeat constructor; discriminate.
  - constructor; [unfold digit; lia|exact Ht].
Qed.
Lemma read_number : forall i f s, number_text i f s -> d_read s = Some (Dec false (dec_value (i ++ f)) (length f)).
Proof.
  intros i f s (Hi & Hf & Hl & ->). destruct (g_int_all Hi) as [Di Ni]. unfold d_read.
  assert (E : d_split (i ++ match f with [] => [] | _ => bs "." ++ f end) = (i, match f with [] => None | _ => Some f end)).
  { destruct f as [|y f]; [rewrite app_nil_r; now apply split_digits|now apply split_point]. }
  rewrite E. assert (F : match match f with [] => None | _ => Some f end with Some f => f | None => [] end = f) by now destruct f. rewrite F.
  rewrite digits_forallb by (apply Forall_app; now split). assert (Hp : Nat.ltb 0 (length (i ++ f)) = true) by (apply Nat.ltb_lt; rewrite app_length; destruct i; [congruence|cbn; lia]).
  rewrite Hp. now rewrite (proj2 (Nat.leb_le _ _) Hl).
Qed.
Lemma dec_value_app : forall a b, dec_value (a ++ b) = (dec_value a * ten_to (length b) + dec_value b)%N.
Proof.
  intros a b. induction b as [|x b IH] using rev_ind.
  - rewrite app_nil_r. cbn. lia.
  - rewrite app_assoc, !dec_value_snoc, IH, app_length. cbn [length]. replace (length b + 1)%nat with (S (length b)) by lia. unfold ten_to. rewrite Nat2N.inj_succ, N.pow_succ_r'. lia.
Qed.
Lemma dec_value_bound : forall b, Forall digit b -> (dec_value b < ten_to (length b))%N.
Proof.
  intros b H. induction b as [|x b IH] using rev_ind; [reflexivity|]. apply Forall_app in H. destruct H as [H1 H2]. inv H2. specialize (IH H1).
  rewrite dec_value_snoc, app_length. cbn [length]. replace (length b + 1)%nat with (S (length b)) by lia. unfold ten_to in *. rewrite Nat2N.inj_succ, N.pow_succ_r'.
  match goal with H : digit x |- _ => unfold digit in H end. lia.
Qed.
Lemma trunc_read : forall i f, Forall digit f -> d_trunc (Dec false (dec_value (i ++ f)) (length f)) = dec_value i.
Proof.
  intros i f H. unfold d_trunc. cbn [d_mant d_scale]. rewrite dec_value_app. rewrite N.div_add_l by (pose proof (ten_pos (length f)); lia).
  rewrite N.div_small by now apply dec_value_bound. lia.
Qed.
Theorem C109_document : forall w k i f s t u, g_path k -> number_text i f s -> g_unit t u -> (dec_value i < 2 ^ 64)%N -> (dec_value i * seconds_per u < 2 ^ 64)%N ->
  exists d, hocon_p d_read (k ++ bs " = " ++ s ++ bs " " ++ t) 0 = Success [CObj [(k, CDur d u)]] (length (k ++ bs " = " ++ s ++ bs " " ++ t)) /\
    as_std_duration w (CDur d u) = ROk (Some (dec_value i * nanos_per u)%N) /\ (lasts d u (dec_value i * nanos_per u) <-> Forall (eq (chr "0")) f).
Proof.
  intros w k i f s t u Hk Hs Ht H1 H2. exists (Dec false (dec_value (i ++ f)) (length f)). pose proof (read_number Hs) as Hr. destruct Hs as (Hi & Hf & Hl & ->). split; [|split].
  - apply doc_complete. apply hd_root with (a := []) (ps := [(k, CDur (Dec false (dec_value (i ++ f)) (length f)) u)]).
    + exists [], []. split; [reflexivity|]. split; [exists [], []; split; [reflexivity|]; split; constructor|constructor].
    + set (s := i ++ match f with [] => [] | _ => bs "." ++ f end) in *.
      assert (E : k ++ bs " = " ++ s ++ bs " " ++ t = (k ++ bs " " ++ bs "=" ++ bs " " ++ (s ++ bs " " ++ t)) ++ []) by (rewrite app_nil_r; reflexivity).
      match goal with |- hroot _ ?x _ => change x with (k ++ bs " = " ++ s ++ bs " " ++ t) end. rewrite E. apply hr_one; [exists [], []; split; [reflexivity|]; split; constructor|].
      assert (Wsp : ws (bs " ")) by (repeat constructor).
      apply hk_kv; [left; now split|exists (bs " "), []; split; [reflexivity|split; [exact Wsp|constructor]]|now left| |].
      * exists [], (bs " "). split; [reflexivity|]. split; [exists [], []; split; [reflexivity|]; split; constructor|exact Wsp].
      * apply hv_dur; [|exact Hr|exact Wsp|exact Ht|exact I].
        exists i, (match f with [] => [] | _ => bs "." ++ f end), []. split; [unfold s; now rewrite app_nil_r|]. split; [exact Hi|]. split; [|split; [now left|congruence]].
        destruct f as [|y f]; [now left|]. right. exists (y :: f). split; [reflexivity|]. split; [exact Hf|discriminate].
    + cbn. constructor; [intros []|constructor].
  - rewrite std_trunc; rewrite ?trunc_read by exact Hf; [reflexivity|reflexivity|exact H1|exact H2].
  - unfold lasts. cbn [d_neg d_scale d_mant]. rewrite dec_value_app. assert (P : (0 < nanos_per u)%N) by (destruct u; reflexivity).
    assert (Z : dec_value f = 0%N <-> Forall (eq (chr "0")) f).
    { clear - Hf. induction f as [|x f IH] using rev_ind; [split; [constructor|reflexivity]|]. apply Forall_app in Hf. destruct Hf as [Hf Hx]. inv Hx. specialize (IH Hf).
      rewrite dec_value_snoc. match goal with H : digit x |- _ => unfold digit in H end. change (chr "0") with 48%N in *. split.
      - intros E. apply Forall_app. split; [apply IH; lia|]. constructor; [lia|constructor].
      - intros E. apply Forall_app in E. destruct E as [E1 E2]. inv E2. apply IH in E1. lia. }
    rewrite <- Z. split; [intros [_ E]; nia|intros ->; split; [reflexivity|]; lia].
Qed.
Example C109_case : exists s, number_text (bs "90") (bs "50") s /\ s = bs "90.50" /\
  hocon_p d_read (bs "a.b = 90.50 m") 0 = Success [CObj [(bs "a.b", CDur (Dec false 9050 2) UMinutes)]] 13 /\
  as_std_duration false (CDur (Dec false 9050 2) UMinutes) = ROk (Some 5400000000000%N) /\ lasts (Dec false 9050 2) UMinutes 5430000000000 /\
  to_duration (Dec false 9050 2) UMinutes = ROk (Some 5400000000000%Z) /\ to_duration (Dec false 153722867280913 0) UMinutes = RPanic.
Proof.
  eexists. split; [|split; [reflexivity|repeat split; vm_compute; reflexivity]]. split; [|split; [|split; [vm_compute; lia|reflexivity]]].
  - right. exists 57%N, [48%N]. split; [reflexivity|]. split; [lia|]. repeat constructor; discriminate.
  - repeat constructor; discriminate.
Qed.
Print Assumptions C109_std_rounds_down.
Print Assumptions C109_std_whole_partial.
Print Assumptions C109_std_exact_refuted.
Print Assumptions C109_chrono.
Print Assumptions C109_document.

(** ** C110: durations put into a configuration come back *)
(** std: the conversion never panics, but only durations below 2^64 nanoseconds (584 years) come back. *)
Theorem C110_std_partial : forall w n, is_std n ->
  exists d u, from_std n = ROk (d, u) /\ to_std_duration d_to_u64 w d u = ROk (if (n <? 2 ^ 64)%N then Some n else None).
Proof.
  intros w n H. exists (Dec false n 0), UNanos. unfold from_std, d_of_u128. unfold is_std, std_max, giga in H.
  assert (n < 2 ^ 96)%N by (eapply N.lt_trans; [exact H|reflexivity]). destruct (N.ltb_spec n (2 ^ 96)); [|lia]. split; [reflexivity|].
  unfold to_std_duration, d_to_u64, d_trunc. cbn [d_neg d_mant d_scale]. change (ten_to 0) with 1%N. rewrite N.div_1_r. destruct (N.ltb_spec n (2 ^ 64)); [now rewrite ?N.mul_1_r|reflexivity].
Qed.
Theorem C110_std_refuted : forall w, exists n d u, is_std n /\ from_std n = ROk (d, u) /\ as_std_duration w (CDur d u) = RPanic.
Proof. intros w. exists (2 ^ 64)%N, (Dec false (2 ^ 64) 0), UNanos. split; [vm_compute; reflexivity|]. split; [vm_compute; reflexivity|destruct w; vm_compute; reflexivity]. Qed.
(** chrono: what fits into 64 bits of nanoseconds comes back, also as a std duration if it is not negative; what does not fit panics. *)
Theorem C110_chrono_partial : forall z, is_chrono z -> (- 2 ^ 63 <= z < 2 ^ 63)%Z ->
  exists d u, from_chrono z = ROk (d, u) /\ as_duration (CDur d u) = ROk (Some z) /\
    forall w, to_std_duration d_to_u64 w d u = ROk (if (z <? 0)%Z then None else Some (Z.to_N z)).
Proof.
  intros z _ H. exists (d_of_i64 z), UNanos. unfold from_chrono. destruct (Z.leb_spec (- 2 ^ 63) z), (Z.ltb_spec z (2 ^ 63)); try lia. split; [reflexivity|].
  assert (T : d_trunc (d_of_i64 z) = Z.abs_N z) by (unfold d_trunc, d_of_i64; cbn [d_mant d_scale]; change (ten_to 0) with 1%N; apply N.div_1_r). split.
  - cbn [as_duration]. unfold to_duration, d_to_i64. rewrite T. unfold d_of_i64. cbn [d_neg].
    assert (E : (if (z <? 0)%Z then - Z.of_N (Z.abs_N z) else Z.of_N (Z.abs_N z))%Z = z) by (destruct (Z.ltb_spec z 0); lia). rewrite E.
    destruct (Z.leb_spec (- 2 ^ 63) z), (Z.ltb_spec z (2 ^ 63)); try lia. reflexivity.
  - intros w. unfold to_std_duration, d_to_u64. rewrite T. unfold d_of_i64. cbn [d_neg]. destruct (Z.ltb_spec z 0); [reflexivity|].
    destruct (N.ltb_spec (Z.abs_N z) (2 ^ 64)) as [|K]; [do 2 f_equal; lia|]. exfalso. lia.
Qed.
Theorem C110_chrono_panics : forall z, is_chrono z -> ~ (- 2 ^ 63 <= z < 2 ^ 63)%Z -> from_chrono z = RPanic.
Proof. intros z _ H. unfold from_chrono. destruct (Z.leb_spec (- 2 ^ 63) z), (Z.ltb_spec z (2 ^ 63)); try reflexivity. exfalso. lia. Qed.
Theorem C110_chrono_refuted : exists z, is_chrono z /\ from_chrono z = RPanic.
Proof. exists (2 ^ 63)%Z. split; [split; vm_compute; discriminate|vm_compute; reflexivity]. Qed.
Example C110_case : is_std 60000000000 /\ from_std 60000000000 = ROk (Dec false 60000000000 0, UNanos) /\ is_chrono (- 5) /\ from_chrono (- 5) = ROk (Dec true 5 0, UNanos) /\
  is_chrono (2 ^ 63) /\ ~ (- 2 ^ 63 <= 2 ^ 63 < 2 ^ 63)%Z.
Proof. repeat split; try (vm_compute; (reflexivity || discriminate)). lia. Qed.
Print Assumptions C110_std_partial.
Print Assumptions C110_std_refuted.
Print Assumptions C110_chrono_partial.
Print Assumptions C110_chrono_panics.
Print Assumptions C110_chrono_refuted.
