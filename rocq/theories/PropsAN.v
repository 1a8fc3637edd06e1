(** C130, C131: the numbers of JSON as doubles (F64.v). *)
From Verif Require Import PropsF PropsS.
From Verif Require Import Base Core Comb Text Json JsonSpec Bench BenchFacts F64.
From Coq Require Import ZArith Reals Lia Lra.
From Coq.Floats Require Import SpecFloat.
From Flocq Require Import Core.Core IEEE754.BinarySingleNaN.
Set Implicit Arguments.
Local Open Scope nat_scope.
Local Open Scope list_scope.

(** ** C130: a number is read as the closest double *)
(** A JSON number whose value is below [limit] = 2^1024 - 2^970 is read as the double that is closest to its value, the even one of two; a minus sign is kept, also for zero. *)
Theorem C130_closest : forall utf8 a t b neg r, ws a -> ws b -> denotes t neg r -> (Rabs r < limit)%R ->
  exists z, parse (json_p f64_from_str utf8) (a ++ t ++ b) = Success (JNum z) (length (a ++ t ++ b)) /\
    is_double (value z) /\ value z = nearest_even r /\ sign_SF z = neg /\ forall d, is_double d -> (Rabs (value z - r) <= Rabs (d - r))%R.
Proof.
  intros utf8 a t b neg r Ha Hb Hd Hl. destruct (from_str_rounds Hd) as (z & Ez & V & Hf & _). exists z.
  split; [apply C47_documents_accepted; exists a, t, b; repeat split; try assumption; apply j_num; [now apply denotes_number in Hd|exact Ez]|].
  destruct Hf as (F1 & F2 & F3); [destruct (Rlt_or_le (Rabs (nearest_even r)) (bpow radix2 1024)) as [K|K]; [exact K|apply limit_iff in K; lra]|].
  repeat split; [now apply finite_double|exact F2|exact F3|]. intros d Dd. rewrite F2. now apply nearest_closest.
Qed.
(** A number that is a double is read as itself; so are the integers up to 2^53. *)
Theorem C130_exact : forall utf8 a t b neg r, ws a -> ws b -> denotes t neg r -> is_double r ->
  exists z, parse (json_p f64_from_str utf8) (a ++ t ++ b) = Success (JNum z) (length (a ++ t ++ b)) /\ value z = r.
Proof.
  intros utf8 a t b neg r Ha Hb Hd Hr. assert (N : nearest_even r = r) by (apply round_generic; [apply valid_rnd_N|now apply double_format]).
  assert (L : (Rabs r < limit)%R).
  { destruct (Rlt_or_le (Rabs r) limit) as [K|K]; [exact K|exfalso]. apply limit_iff in K. rewrite N in K. revert K. apply Rlt_not_le.
    destruct Hr as (m & e & -> & Hm & He). rewrite Rabs_mult, <- abs_IZR, p2, (Rabs_pos_eq (bpow _ _)) by apply bpow_ge_0.
    apply Rlt_le_trans with (IZR (2 ^ 53) * bpow radix2 e)%R; [apply Rmult_lt_compat_r; [apply bpow_gt_0|now apply IZR_lt]|].
    change (IZR (2 ^ 53)) with (bpow radix2 53). rewrite <- bpow_plus. apply bpow_le. lia. }
  destruct (@C130_closest utf8 a t b neg r Ha Hb Hd L) as (z & E & _ & Ez & _). exists z. now rewrite Ez.
Qed.
Lemma small_double : forall n, (Z.abs n <= 2 ^ 53)%Z -> is_double (IZR n).
Proof.
  intros n H. destruct (Z.eq_dec (Z.abs n) (2 ^ 53)) as [E|E].
  - exists (Z.sgn n * 2 ^ 52)%Z, 1%Z. split; [|lia]. rewrite p2. change (bpow radix2 1) with (IZR 2). rewrite <- mult_IZR. f_equal. lia.
  - exists n, 0%Z. split; [cbn [powerRZ]; lra|lia].
Qed.
Theorem C130_integers : forall utf8 a t b neg n, ws a -> ws b -> denotes t neg (IZR n) -> (Z.abs n <= 2 ^ 53)%Z ->
  exists z, parse (json_p f64_from_str utf8) (a ++ t ++ b) = Success (JNum z) (length (a ++ t ++ b)) /\ value z = IZR n.
Proof. intros utf8 a t b neg n Ha Hb Hd Hn. exact (C130_exact utf8 Ha Hb Hd (small_double n Hn)). Qed.
(** The numbers of a document of any shape are those of its number texts. *)
Inductive number_in {F} : F -> json F -> Prop :=
| ni_num : forall x, number_in x (JNum x)
| ni_array : forall x v vs, In v vs -> number_in x v -> number_in x (JArray vs)
| ni_object : forall x k v ms, In (k, v) ms -> number_in x v -> number_in x (JObject ms).
Lemma collect_in : forall V (ms : list (list N * V)) kv, In kv (hm_collect ms) -> In kv ms.
Proof.
  intros V ms kv. unfold hm_collect. assert (G : forall ms m, In kv (fold_left (fun m kv => hm_set m (fst kv) (snd kv)) ms m) -> In kv m \/ In kv ms).
  { clear ms. induction ms as [|[k v] ms IH]; intros m H; [now left|]. cbn [fold_left fst snd] in H. apply IH in H. destruct H as [H|H]; [|right; now right].
    clear IH. induction m as [|[k' v'] m IHm]; cbn [hm_set] in H; [destruct H as [H|[]]; right; left; exact H|].
    destruct (list_eq_dec N.eq_dec k k') as [E|E]; (destruct H as [H|H]; [subst; try (left; now left)|]).
    - right. now left.
    - left. now right.
    - apply IHm in H. destruct H as [H|H]; [left; now right|now right]. }
  intros H. apply G in H. now destruct H.
Qed.
Theorem C130_numbers : forall utf8 s v n z, parse (json_p f64_from_str utf8) s = Success v n -> number_in z v ->
  exists a t b neg r, s = a ++ t ++ b /\ denotes t neg r /\ rounds z neg r.
Proof.
  intros utf8 s v n z E. apply C48_accepts_exactly_partial in E. destruct E as [_ (a & t & b & -> & _ & H & _)]. clear n.
  set (part := fun s : list N => exists a t b neg r, s = a ++ t ++ b /\ denotes t neg r /\ rounds z neg r).
  assert (P : forall x y w, part y -> part (x ++ y ++ w)).
  { intros x y w (a0 & t0 & b0 & neg & r & -> & H1 & H2). exists (x ++ a0), t0, (b0 ++ w), neg, r. rewrite <- !app_assoc. split; [reflexivity|now split]. }
  assert (Pl : forall x y, part y -> part (x ++ y)) by (intros x y H1; rewrite <- (app_nil_r y); now apply P).
  assert (Pr : forall x y, part x -> part (x ++ y)) by (intros x y H1; exact (P [] x y H1)).
  intros K. apply P. clear a b.
  assert (G : (forall v s, jval f64_from_str false utf8 v s -> number_in z v -> part s) /\
              (forall vs s, jelems f64_from_str false utf8 vs s -> (exists v, In v vs /\ number_in z v) -> part s) /\
              (forall ms s, jmembers f64_from_str false utf8 ms s -> (exists k v, In (k, v) ms /\ number_in z v) -> part s)).
  { apply jval_ind3.
    - intros N0; inversion N0.
    - intros N0; inversion N0.
    - intros N0; inversion N0.
    - intros x s Hs Ex N0. inversion N0; subst. destruct (number_denotes Hs) as (neg & r & D). destruct (from_str_rounds D) as (z' & Ez & R).
      assert (x = z') by congruence. subst z'. exists [], s, [], neg, r. rewrite app_nil_r. split; [reflexivity|now split].
    - intros v0 s _ N0; inversion N0.
    - intros w _ N0; inversion N0; subst. now match goal with X : In _ [] |- _ => destruct X end.
    - intros vs s w _ IH _ N0. inversion N0; subst. apply Pl, Pr, IH. eauto.
    - intros w _ N0; inversion N0; subst. now match goal with X : In _ [] |- _ => destruct X end.
    - intros ms s w _ IH _ N0. inversion N0; subst. apply Pl, Pr, IH. match goal with X : In _ (hm_collect _) |- _ => apply collect_in in X end. eauto.
    - intros v0 a s b _ _ IH _ (v1 & [<-|[]] & N0). now apply P, IH.
    - intros v0 a s b vs t0 _ _ IH _ _ IH2 (v1 & [<-|I1] & N0); [now apply P, IH|]. apply Pl, Pl, Pl, Pl, IH2. eauto.
    - intros k v0 a sk b c s d _ _ _ _ _ IH _ (k1 & v1 & [I1|[]] & N0). injection I1 as <- <-. now apply Pl, Pl, Pl, Pl, P, IH.
    - intros k v0 a sk b c s d ms t0 _ _ _ _ _ IH _ _ IH2 (k1 & v1 & [I1|I1] & N0); [injection I1 as <- <-; now apply Pl, Pl, Pl, Pl, P, IH|].
      apply Pl, Pl, Pl, Pl, Pl, Pl, Pl, Pl, IH2. eauto. }
  now apply (proj1 G) with (1 := H).
Qed.
Ltac digs := cbn; repeat (apply Forall_cons; [unfold digit; lia|]); apply Forall_nil.
(** -12.5e1 is -125, 9007199254740993 = 2^53 + 1 is halfway between two doubles, and -0 is a zero with a sign. *)
Example C130_case :
  denotes (bs "-12.5e1") true (-125) /\ parse (json_p f64_from_str true) (bs " -12.5e1 ") = Success (JNum (S754_finite true 8796093022208000 (-46))) 9 /\
  parse (json_p f64_from_str true) (bs "9007199254740993") = Success (JNum (S754_finite false 4503599627370496 1)) 16 /\
  parse (json_p f64_from_str false) (bs "[-0]") = Success (JArray [JNum (S754_zero true)]) 4 /\ (Rabs (-125) < limit)%R.
Proof.
  split.
  - exists (bs "-"), (bs "12"), (bs ".5"), (bs "5"), (bs "e1"), 1%Z. split; [reflexivity|]. split; [now right|].
    split; [right; exists 49%N, (bs "2"); repeat split; try lia; digs|].
    split; [right; repeat split; [digs|discriminate]|].
    split; [right; exists (bs "e"), [], (bs "1"); repeat split; [now left|digs|discriminate|left; split; [now left|]]|].
    + cbn. unfold dig. cbn. lra.
    + change (powerRZ 10 1) with (10 * 1)%R. unfold signed. cbn. unfold dig. cbn. lra.
  - repeat split; try (vm_compute; reflexivity).
    rewrite Rabs_left by lra. unfold limit. rewrite !p2. assert (E0 : (bpow radix2 1024 = bpow radix2 1023 + bpow radix2 1023)%R).
    { change 1024%Z with (1 + 1023)%Z. rewrite bpow_plus. change (bpow radix2 1) with 2%R. ring. }
    assert (E1 : (bpow radix2 970 < bpow radix2 1023)%R) by (apply bpow_lt; lia). assert (E2 : (bpow radix2 7 < bpow radix2 1023)%R) by (apply bpow_lt; lia).
    change (bpow radix2 7) with 128%R in E2. lra.
Qed.
Print Assumptions C130_closest.
Print Assumptions C130_exact.
Print Assumptions C130_integers.
Print Assumptions C130_numbers.

(** ** C131: the numbers are finite *)
(** A document with a number that is not finite. *)
Theorem C131_finite_refuted : exists s v, (exists r, denotes s false r) /\ forall utf8,
  parse (json_p f64_from_str utf8) s = Success (JNum v) (length s) /\ is_finite_SF v = false.
Proof.
  exists (bs "1e309"), (S754_infinity false). split.
  - assert (G : g_number (bs "1e309")).
    { exists [], (bs "1"), [], (bs "e309"). repeat split; try (now left).
      - right. exists 49%N, []. repeat split; try lia. constructor.
      - right. exists (bs "e"), [], (bs "309"). repeat split; try (now left); [digs|discriminate]. }
    destruct (number_denotes G) as (neg & r & D). exists r. destruct neg; [|exact D]. exfalso.
    destruct D as (m & i & f & fd & e & k & E & [[_ Hm]|[-> _]] & _); [discriminate|]. discriminate.
  - intros [|]; split; vm_compute; reflexivity.
Qed.
(** Exactly the numbers of magnitude 2^1024 - 2^970 and more become infinite; none becomes a NaN. *)
Theorem C131_finite_partial : forall utf8 a t b neg r, ws a -> ws b -> denotes t neg r ->
  exists z, parse (json_p f64_from_str utf8) (a ++ t ++ b) = Success (JNum z) (length (a ++ t ++ b)) /\ rounds z neg r /\
    (is_finite_SF z = true <-> (Rabs r < limit)%R) /\ (z = S754_infinity neg <-> (limit <= Rabs r)%R) /\ z <> S754_nan.
Proof.
  intros utf8 a t b neg r Ha Hb Hd. destruct (from_str_rounds Hd) as (z & Ez & R). exists z.
  split; [apply C47_documents_accepted; exists a, t, b; repeat split; try assumption; apply j_num; [now apply denotes_number in Hd|exact Ez]|].
  split; [exact R|]. destruct R as (_ & Hf & Hi). destruct (Rlt_or_le (Rabs (nearest_even r)) (bpow radix2 1024)) as [K|K].
  - destruct (Hf K) as (F1 & _ & _). assert (L : (Rabs r < limit)%R) by (destruct (Rlt_or_le (Rabs r) limit) as [C|C]; [exact C|apply limit_iff in C; lra]).
    repeat split; intros; subst; try assumption; try discriminate; try lra; intros J; subst; discriminate.
  - specialize (Hi K). apply limit_iff in K. subst z. repeat split; intros; try assumption; try reflexivity; try discriminate; lra.
Qed.
(** So for whole documents. *)
Theorem C131_documents_partial : forall utf8 s v n, parse (json_p f64_from_str utf8) s = Success v n ->
  (forall a t b neg r, s = a ++ t ++ b -> denotes t neg r -> (Rabs r < limit)%R) -> forall z, number_in z v -> is_finite_SF z = true.
Proof.
  intros utf8 s v n E H z Hz. destruct (C130_numbers utf8 s E Hz) as (a & t & b & neg & r & Es & D & _ & Hf & _).
  apply Hf. destruct (Rlt_or_le (Rabs (nearest_even r)) (bpow radix2 1024)) as [K|K]; [exact K|]. apply limit_iff in K. specialize (H a t b neg r Es D). lra.
Qed.
(** No part of [8.25,-3] denotes a number as large as the limit; 1e308 is below it and 1e309 is not. *)
Lemma finite_below : forall t neg r z, denotes t neg r -> f64_from_str t = inl z -> is_finite_SF z = true -> (Rabs r < limit)%R.
Proof.
  intros t neg r z D E Hf. destruct (from_str_rounds D) as (z' & E' & _ & _ & Hi). assert (z' = z) by congruence. subst z'.
  destruct (Rlt_or_le (Rabs r) limit) as [C|C]; [exact C|]. apply limit_iff in C. rewrite (Hi C) in Hf. discriminate.
Qed.
Definition parts_finite (s : list N) : bool :=
  forallb (fun i => forallb (fun j => match f64_from_str (firstn j (skipn i s)) with inl z => is_finite_SF z | inr _ => true end) (seq 0 (S (length s)))) (seq 0 (S (length s))).
Lemma parts_finite_below : forall s, parts_finite s = true -> forall a t b neg r, s = a ++ t ++ b -> denotes t neg r -> (Rabs r < limit)%R.
Proof.
  intros s H a t b neg r -> D. destruct (from_str_rounds D) as (z & E & _). apply (finite_below D E). unfold parts_finite in H. rewrite forallb_forall in H.
  specialize (H (length a)). rewrite in_seq, !app_length in H. specialize (H ltac:(lia)). rewrite forallb_forall in H. specialize (H (length t)). rewrite in_seq in H. specialize (H ltac:(lia)).
  rewrite skipn_app, skipn_all, Nat.sub_diag in H. cbn [app skipn] in H. rewrite firstn_app, Nat.sub_diag, firstn_all in H. cbn [firstn] in H. rewrite app_nil_r, E in H. exact H.
Qed.
Example C131_case : let s := bs "[8.25,-3]" in (forall a t b neg r, s = a ++ t ++ b -> denotes t neg r -> (Rabs r < limit)%R) /\
  parse (json_p f64_from_str true) s = Success (JArray [JNum (S754_finite false 4644337115725824 (-49)); JNum (S754_finite true 6755399441055744 (-51))]) 9 /\
  (exists r, denotes (bs "1e308") false r /\ (Rabs r < limit)%R) /\ (exists r, denotes (bs "1e309") false r /\ (limit <= Rabs r)%R).
Proof.
  cbv zeta. split; [apply parts_finite_below; vm_compute; reflexivity|]. split; [vm_compute; reflexivity|].
  assert (G : forall x, x = bs "308" \/ x = bs "309" -> exists r, denotes (bs "1e" ++ x) false r).
  { intros x Hx. eexists. exists [], (bs "1"), [], [], (bs "e" ++ x), (match x with [_; _; 56%N] => 308 | _ => 309 end)%Z. split; [reflexivity|]. split; [now left|].
    split; [right; exists 49%N, []; repeat split; try lia; constructor|]. split; [now left|]. split; [|reflexivity]. right. exists (bs "e"), [], x.
    destruct Hx as [-> | ->]; (repeat split; [now left|digs|discriminate|left; split; [now left|cbn; unfold dig; cbn; lra]]). }
  split.
  - destruct (G (bs "308") (or_introl eq_refl)) as [r D]. exists r. split; [exact D|]. apply (finite_below D (z := S754_finite false 5010420900022432 971)); vm_compute; reflexivity.
  - destruct (G (bs "309") (or_intror eq_refl)) as [r D]. exists r. split; [exact D|]. destruct (Rlt_or_le (Rabs r) limit) as [C|C]; [|exact C]. exfalso.
    destruct (@C131_finite_partial true [] _ [] _ _ ltac:(constructor) ltac:(constructor) D) as (z & E & _ & [_ Hf] & _). specialize (Hf C).
    assert (E' : parse (json_p f64_from_str true) ([] ++ (bs "1e" ++ bs "309") ++ []) = Success (JNum (S754_infinity false)) 5) by (vm_compute; reflexivity). rewrite E' in E. injection E as <-. exact (diff_false_true Hf).
Qed.
Print Assumptions C131_finite_refuted.
Print Assumptions C131_finite_partial.
Print Assumptions C131_documents_partial.

(** ** C105 with this f64::from_str: the unwrap of the byte reader of the benchmark never panics *)
Theorem C105_numbers_read : forall s, g_number s -> exists x, f64_from_str s = inl x.
Proof. intros s H. destruct (number_denotes H) as (neg & r & D). destruct (from_str_rounds D) as (z & E & _). now exists z. Qed.
Theorem C105_byte_returns_f64 : forall lossy inp,
  parse (bench_p f64_from_str lossy true) inp <> Panic /\ parse (bench_p f64_from_str lossy true) inp <> Diverge.
Proof. intros lossy inp. apply C105_byte_returns. exact C105_numbers_read. Qed.
Theorem C105_byte_exact_f64_partial : forall lossy inp v n,
  parse (bench_p f64_from_str lossy true) inp = Success v n <-> n = length inp /\ bdoc (raw_string lossy) (num_text f64_from_str) v inp.
Proof. intros lossy inp v n. apply C105_byte_exact_partial. exact C105_numbers_read. Qed.
Example C105_f64_case : parse (bench_p f64_from_str (fun s => s) true) (bs "[0.5,1e309]") = Success (JArray [JNum (S754_finite false 4503599627370496 (-53)); JNum (S754_infinity false)]) 11.
Proof. vm_compute. reflexivity. Qed.
Print Assumptions C105_numbers_read.
Print Assumptions C105_byte_returns_f64.
Print Assumptions C105_byte_exact_f64_partial.
