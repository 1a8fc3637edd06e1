(** f64::from_str of the Rust standard library (core/num/dec2flt), as called by parser/examples/json_byte.rs 25, parser/examples/json_char.rs 26
    and parser/benches/oni_comb_json.rs 26 and 147.  The standard library is not part of /repo; its documentation gives the grammar and promises
    correct rounding.  Doubles are Coq's [spec_float] with the precision 53 and the exponent bound 1024. *)
From Verif Require Import Base Core Comb Text Json JsonSpec.
From Coq Require Import ZArith Reals Lia Lra.
From Coq.Floats Require Import SpecFloat.
From Flocq Require Import Core.Core IEEE754.BinarySingleNaN Calc.Bracket Calc.Div.
Set Implicit Arguments.
Local Open Scope nat_scope.
Local Open Scope list_scope.

Definition f64 := spec_float.
Definition is_dec (x : N) : bool := ((48 <=? x) && (x <=? 57))%N.
(** The digits a text begins with, and the rest (dec2flt/parse.rs, try_parse_digits). *)
Fixpoint take_digits (s : list N) : list N * list N :=
  match s with
  | x :: t => if is_dec x then let (d, r) := take_digits t in (x :: d, r) else ([], s)
  | [] => ([], [])
  end.
Definition dec_digits (s : list N) : Z := fold_left (fun a x => 10 * a + (Z.of_N x - 48))%Z s 0%Z.
Definition split_sign (s : list N) : bool * list N :=
  match s with 45%N :: t => (true, t) | 43%N :: t => (false, t) | _ => (false, s) end.
(** m * 10^e, rounded to the nearest double, ties to even; too large a number becomes infinite. *)
Definition round_decimal (neg : bool) (m e : Z) : f64 :=
  if (m =? 0)%Z then S754_zero neg
  else let '(q, k, l) := Fdiv (SpecFloat.fexp 53 1024) (Float radix2 (m * 10 ^ Z.max e 0) 0) (Float radix2 (10 ^ Z.max (- e) 0) 0) in
       binary_round_aux 53 1024 mode_NE neg q k l.
(** dec2flt/parse.rs, parse_inf_nan: inf, infinity and nan in any case. *)
Definition lower (x : N) : N := if ((65 <=? x) && (x <=? 90))%N then (x + 32)%N else x.
Definition special (neg : bool) (s : list N) : f64 + unit :=
  let t := map lower s in
  if list_eq_dec N.eq_dec t (bs "inf") then inl (S754_infinity neg)
  else if list_eq_dec N.eq_dec t (bs "infinity") then inl (S754_infinity neg)
  else if list_eq_dec N.eq_dec t (bs "nan") then inl S754_nan else inr tt.
(** dec2flt/mod.rs, dec2flt, and dec2flt/parse.rs, parse_number. *)
Definition f64_from_str (s : list N) : f64 + unit :=
  let '(neg, t) := split_sign s in
  let (i, t1) := take_digits t in
  let (f, t2) := match t1 with 46%N :: u => take_digits u | _ => ([], t1) end in
  match i ++ f with
  | [] => special neg t
  | m => match t2 with
    | [] => inl (round_decimal neg (dec_digits m) (- Z.of_nat (length f)))
    | c :: u =>
        if (c =? 101)%N || (c =? 69)%N then
          let '(en, w) := split_sign u in
          match take_digits w with
          | ([], _) | (_, _ :: _) => inr tt
          | (x, []) => inl (round_decimal neg (dec_digits m) ((if en then - dec_digits x else dec_digits x) - Z.of_nat (length f)))
          end
        else inr tt
    end
  end.

(** ** The number a JSON number text denotes, and the double closest to it *)
Local Open Scope R_scope.
Definition dig (x : N) : R := IZR (Z.of_N x - 48).
Fixpoint whole (s : list N) : R := match s with [] => 0 | x :: t => dig x * 10 ^ length t + whole t end.
Fixpoint fraction (s : list N) : R := match s with [] => 0 | x :: t => (dig x + fraction t) / 10 end.
Definition exponent (e : list N) (k : Z) : Prop :=
  (e = [] /\ k = 0%Z) \/
  exists c sg t, e = c ++ sg ++ t /\ (c = bs "e" \/ c = bs "E") /\ digits1 t /\
    (((sg = [] \/ sg = bs "+") /\ IZR k = whole t) \/ (sg = bs "-" /\ IZR k = - whole t)).
Definition signed (neg : bool) (v : R) : R := if neg then - v else v.
Definition denotes (s : list N) (neg : bool) (v : R) : Prop :=
  exists m i f fd e k, s = m ++ i ++ f ++ e /\
    ((m = [] /\ neg = false) \/ (m = bs "-" /\ neg = true)) /\ g_int i /\
    ((f = [] /\ fd = []) \/ (f = bs "." ++ fd /\ digits1 fd)) /\ exponent e k /\
    v = signed neg ((whole i + fraction fd) * powerRZ 10 k).
(** The finite doubles. *)
Definition is_double (r : R) : Prop := exists m e : Z, r = IZR m * powerRZ 2 e /\ (Z.abs m < 2 ^ 53)%Z /\ (-1074 <= e <= 971)%Z.
Definition nearest_even (v : R) : R := round radix2 (FLT_exp (-1074) 53) ZnearestE v.
Definition value (z : f64) : R := SF2R radix2 z.
(** [z] is [v] rounded to nearest, ties to even. *)
Definition rounds (z : f64) (neg : bool) (v : R) : Prop :=
  valid_binary 53 1024 z = true /\
  (Rabs (nearest_even v) < bpow radix2 1024 -> is_finite_SF z = true /\ value z = nearest_even v /\ sign_SF z = neg) /\
  (bpow radix2 1024 <= Rabs (nearest_even v) -> z = S754_infinity neg).

Lemma p53 : Prec_gt_0 53. Proof. easy. Qed.
Lemma p53_1024 : Prec_lt_emax 53 1024. Proof. easy. Qed.
Lemma pow10 : forall z, (0 <= z)%Z -> IZR (10 ^ z) = powerRZ 10 z.
Proof. intros z Hz. rewrite <- (Z2Nat.id z Hz) at 1 2. rewrite <- pow_IZR. apply pow_powerRZ. Qed.
Lemma round_decimal_rounds : forall neg m e, (0 <= m)%Z -> rounds (round_decimal neg m e) neg (signed neg (IZR m * powerRZ 10 e)).
Proof.
  intros neg m e Hm. unfold round_decimal. destruct (Z.eqb_spec m 0) as [->|Hz].
  - assert (E : signed neg (0 * powerRZ 10 e) = 0) by (unfold signed; destruct neg; lra). rewrite E. unfold rounds, nearest_even. rewrite round_0; [|apply valid_rnd_N].
    rewrite Rabs_R0. split; [reflexivity|]. split; [intros _; repeat split|]. intros H. pose proof (bpow_gt_0 radix2 1024). lra.
  - assert (Hp : (0 < m)%Z) by lia. set (X := Float radix2 (m * 10 ^ Z.max e 0) 0). set (Y := Float radix2 (10 ^ Z.max (- e) 0) 0).
    assert (PX : (0 < 10 ^ Z.max e 0)%Z) by (apply Z.pow_pos_nonneg; lia). assert (PY : (0 < 10 ^ Z.max (- e) 0)%Z) by (apply Z.pow_pos_nonneg; lia).
    assert (EX : F2R X = IZR m * IZR (10 ^ Z.max e 0)) by (unfold X, F2R; cbn [Fnum Fexp bpow]; rewrite mult_IZR; ring).
    assert (EY : F2R Y = IZR (10 ^ Z.max (- e) 0)) by (unfold Y, F2R; cbn [Fnum Fexp bpow]; ring).
    apply IZR_lt in PX. apply IZR_lt in PY. apply IZR_lt in Hp.
    assert (GX : 0 < F2R X) by (rewrite EX; now apply Rmult_lt_0_compat). assert (GY : 0 < F2R Y) by now rewrite EY.
    pose proof (@Fdiv_correct radix2 (SpecFloat.fexp 53 1024) X Y GX GY) as D. destruct (Fdiv (SpecFloat.fexp 53 1024) X Y) as [[q k] l]. destruct D as [Dk Db].
    assert (V : F2R X / F2R Y = IZR m * powerRZ 10 e).
    { rewrite EX, EY. rewrite !pow10 by lia. destruct (Z.le_gt_cases 0 e) as [C|C].
      - rewrite Z.max_l by exact C. rewrite Z.max_r by lia. change (powerRZ 10 0) with 1. lra.
      - rewrite Z.max_r by lia. rewrite Z.max_l by lia. change (powerRZ 10 0) with 1. rewrite powerRZ_neg'. rewrite Rmult_1_r. unfold Rdiv. now rewrite Rinv_inv. }
    rewrite V in Dk, Db. set (v := IZR m * powerRZ 10 e) in *.
    assert (Hv : 0 < v) by (apply Rmult_lt_0_compat; [exact Hp|apply powerRZ_lt; lra]).
    assert (Hx : signed neg v <> 0) by (unfold signed; destruct neg; lra).
    assert (Ax : Rabs (signed neg v) = v) by (unfold signed; destruct neg; [rewrite Rabs_Ropp|]; apply Rabs_pos_eq; lra).
    assert (Sx : Rlt_bool (signed neg v) 0 = neg) by (unfold signed; destruct neg; [apply Rlt_bool_true|apply Rlt_bool_false]; lra).
    rewrite <- Ax in Db. assert (Ck : (k <= cexp radix2 (SpecFloat.fexp 53 1024) (signed neg v))%Z).
    { rewrite <- cexp_abs, Ax. exact Dk. }
    pose proof (@binary_round_aux_correct' 53 1024 p53 p53_1024 mode_NE (signed neg v) q k l Hx Db Ck) as R. rewrite Sx in R. cbv zeta in R.
    destruct R as [R1 R2]. split; [exact R1|]. unfold nearest_even. change (FLT_exp (-1074) 53) with (SpecFloat.fexp 53 1024).
    cbn [round_mode] in R2. split; intros L.
    + rewrite Rlt_bool_true in R2 by exact L. destruct R2 as (R2 & R3 & R4). now repeat split.
    + rewrite Rlt_bool_false in R2 by exact L. exact R2.
Qed.

(** ** What it gives on JSON numbers *)
Lemma is_dec_digit : forall x, is_dec x = true <-> digit x.
Proof. intros x. unfold is_dec, digit. rewrite andb_true_iff, !N.leb_le. reflexivity. Qed.
Definition not_digit (r : list N) : Prop := match r with [] => True | x :: _ => ~ digit x end.
Lemma take_digits_spec : forall d r, Forall digit d -> not_digit r -> take_digits (d ++ r) = (d, r).
Proof.
  intros d r H. induction H as [|x d Hx _ IH]; intros K.
  - cbn [app]. destruct r as [|x r]; [reflexivity|]. cbn [take_digits]. destruct (is_dec x) eqn:E; [|reflexivity]. now apply is_dec_digit in E.
  - cbn [app take_digits]. apply is_dec_digit in Hx. now rewrite Hx, (IH K).
Qed.
Lemma dec_go : forall s a, IZR (fold_left (fun a x => 10 * a + (Z.of_N x - 48))%Z s a) = IZR a * 10 ^ length s + whole s.
Proof.
  induction s as [|x s IH]; intros a; cbn [fold_left length whole pow]; [lra|].
  rewrite IH, plus_IZR, mult_IZR. unfold dig. ring.
Qed.
Lemma dec_whole : forall s, IZR (dec_digits s) = whole s.
Proof. intros s. unfold dec_digits. rewrite dec_go. lra. Qed.
Lemma whole_app : forall s t, whole (s ++ t) = whole s * 10 ^ length t + whole t.
Proof.
  induction s as [|x s IH]; intros t; cbn [app whole]; [lra|]. rewrite IH, app_length, pow_add. ring.
Qed.
Lemma fraction_whole : forall s, fraction s = whole s / 10 ^ length s.
Proof.
  induction s as [|x s IH]; cbn [fraction whole length pow]; [lra|]. rewrite IH.
  assert (P : 10 ^ length s <> 0) by (apply pow_nonzero; lra). field. exact P.
Qed.
Lemma dec_nonneg : forall s, Forall digit s -> (0 <= dec_digits s)%Z.
Proof.
  intros s H. unfold dec_digits. assert (G : forall a, (0 <= a)%Z -> (0 <= fold_left (fun a x => 10 * a + (Z.of_N x - 48))%Z s a)%Z); [|now apply G].
  induction H as [|x s Hx _ IH]; intros a Ha; cbn [fold_left]; [exact Ha|]. apply IH. unfold digit in Hx. lia.
Qed.
Lemma decimal_value : forall i f k, IZR (dec_digits (i ++ f)) * powerRZ 10 (k - Z.of_nat (length f)) = (whole i + fraction f) * powerRZ 10 k.
Proof.
  intros i f k. rewrite dec_whole, whole_app, fraction_whole. unfold Zminus. rewrite powerRZ_add by lra. rewrite powerRZ_neg', <- pow_powerRZ.
  assert (P : 10 ^ length f <> 0) by (apply pow_nonzero; lra). field. exact P.
Qed.
Lemma int_digits : forall i, g_int i -> Forall digit i /\ i <> [].
Proof.
  intros i [->|(x & t & -> & Hx & Ht)].
  - split; [|discriminate]. repeat constructor; unfold digit; cbn; lia.
  - split; [|discriminate]. constructor; [unfold digit; lia|exact Ht].
Qed.
Lemma digits_head : forall s, Forall digit s -> s <> [] -> exists x t, s = x :: t /\ digit x.
Proof. intros s H K. destruct H as [|x t Hx]; [congruence|]. now exists x, t. Qed.
(** Every number text is read, as its value rounded. *)
Theorem from_str_rounds : forall s neg v, denotes s neg v -> exists z, f64_from_str s = inl z /\ rounds z neg v.
Proof.
  intros s neg v (m & i & f & fd & e & k & -> & Hm & Hi & Hf & He & ->).
  destruct (int_digits Hi) as [Di Ni]. destruct (digits_head Di Ni) as (x & t & Ex & Dx).
  assert (S1 : split_sign (m ++ i ++ f ++ e) = (neg, i ++ f ++ e)).
  { destruct Hm as [[-> ->]|[-> ->]]; [|reflexivity]. rewrite Ex. cbn [app]. unfold split_sign. unfold digit in Dx.
    destruct x as [|p]; [lia|]. do 6 (destruct p; try reflexivity; try lia). }
  assert (Fd : Forall digit fd) by (destruct Hf as [[_ ->]|[_ [H _]]]; [constructor|exact H]).
  assert (Ne : not_digit e).
  { destruct He as [[-> _]|(c & sg & w & -> & [Hc|Hc] & _)]; [exact I| |]; rewrite Hc; cbn; unfold digit; lia. }
  assert (T1 : take_digits (i ++ f ++ e) = (i, f ++ e)).
  { apply take_digits_spec; [exact Di|]. destruct Hf as [[-> _]|[-> _]]; [exact Ne|]. cbn. unfold digit. lia. }
  assert (T2 : match f ++ e with 46%N :: u => take_digits u | _ => ([], f ++ e) end = (fd, e)).
  { destruct Hf as [[-> ->]|[-> _]].
    - cbn [app]. destruct He as [[-> _]|(c & sg & w & -> & [Hc|Hc] & _)]; [reflexivity| |]; rewrite Hc; reflexivity.
    - cbn [app bs]. now apply take_digits_spec. }
  assert (M : forall q, rounds (round_decimal neg (dec_digits (i ++ fd)) (q - Z.of_nat (length fd))) neg
      (signed neg ((whole i + fraction fd) * powerRZ 10 q))).
  { intros q. rewrite <- decimal_value. apply round_decimal_rounds, dec_nonneg. apply Forall_app. now split. }
  unfold f64_from_str. rewrite S1, T1, T2. destruct (i ++ fd) as [|y l] eqn:El; [now apply app_eq_nil in El|]. rewrite <- El in *.
  destruct He as [[-> ->]|(c & sg & w & -> & Hc & [Dw Nw] & Hk)].
  - eexists. split; [reflexivity|]. exact (M 0%Z).
  - destruct (digits_head Dw Nw) as (y' & l' & Ew & Dy).
    assert (C : exists c0, c = [c0] /\ ((c0 =? 101)%N || (c0 =? 69)%N = true)) by (destruct Hc as [->| ->]; eexists; split; reflexivity).
    destruct C as (c0 & -> & Hc0). cbn [app]. rewrite Hc0.
    assert (T3 : take_digits w = (w, [])) by (rewrite <- (app_nil_r w) at 1; now apply take_digits_spec).
    assert (S2 : exists en, split_sign (sg ++ w) = (en, w) /\ k = if en then (- dec_digits w)%Z else dec_digits w).
    { destruct Hk as [[[->| ->] Hk]|[-> Hk]].
      - exists false. split; [|apply eq_IZR; now rewrite dec_whole]. cbn [app]. rewrite Ew. unfold split_sign. unfold digit in Dy.
        destruct y' as [|p]; [lia|]. do 6 (destruct p; try reflexivity; try lia).
      - exists false. split; [reflexivity|apply eq_IZR; now rewrite dec_whole].
      - exists true. split; [reflexivity|apply eq_IZR; now rewrite opp_IZR, dec_whole]. }
    destruct S2 as (en & -> & ->). rewrite T3. destruct w as [|w0 w1]; [congruence|]. eexists. split; [reflexivity|].
    exact (M _).
Qed.
(** Every JSON number denotes a number. *)
Lemma number_denotes : forall s, g_number s -> exists neg v, denotes s neg v.
Proof.
  intros s (m & i & f & e & -> & Hm & Hi & Hf & He).
  assert (E1 : exists neg, (m = [] /\ neg = false) \/ (m = bs "-" /\ neg = true)) by (destruct Hm as [->|<-]; [exists false; now left|exists true; now right]).
  assert (E2 : exists fd, (f = [] /\ fd = []) \/ (f = bs "." ++ fd /\ digits1 fd)) by (destruct Hf as [->|(t & -> & Ht)]; [exists []; now left|exists t; now right]).
  assert (E3 : exists k, exponent e k).
  { destruct He as [->|(c & sg & t & -> & Hc & Hs & Ht)]; [exists 0%Z; now left|]. destruct Hs as [->|[->| ->]].
    - exists (dec_digits t). right. exists c, [], t. repeat split; try assumption; try apply Ht. left. split; [now left|apply dec_whole].
    - exists (dec_digits t). right. exists c, (bs "+"), t. repeat split; try assumption; try apply Ht. left. split; [now right|apply dec_whole].
    - exists (- dec_digits t)%Z. right. exists c, (bs "-"), t. repeat split; try assumption; try apply Ht. right. split; [reflexivity|]. now rewrite opp_IZR, dec_whole. }
  destruct E1 as [neg E1], E2 as [fd E2], E3 as [k E3]. exists neg, (signed neg ((whole i + fraction fd) * powerRZ 10 k)).
  exists m, i, f, fd, e, k. now repeat split.
Qed.
Lemma denotes_number : forall s neg v, denotes s neg v -> g_number s.
Proof.
  intros s neg v (m & i & f & fd & e & k & -> & Hm & Hi & Hf & He & _). exists m, i, f, e. split; [reflexivity|]. repeat split.
  - destruct Hm as [[-> _]|[-> _]]; [now left|now right].
  - exact Hi.
  - destruct Hf as [[-> _]|[-> H]]; [now left|right; now exists fd].
  - destruct He as [[-> _]|(c & sg & t & -> & Hc & Ht & Hk)]; [now left|right]. exists c, sg, t. repeat split; try assumption; try apply Ht.
    destruct Hk as [[[->| ->] _]|[-> _]]; [now left|right; now left|right; now right].
Qed.

(** ** Closeness, and when the result is infinite *)
Lemma double_format : forall r, is_double r -> generic_format radix2 (FLT_exp (-1074) 53) r.
Proof.
  intros r (m & e & -> & Hm & He). apply generic_format_FLT. exists (Float radix2 m e); [|exact Hm|apply He].
  unfold F2R. cbn [Fnum Fexp]. now rewrite bpow_powerRZ.
Qed.
Lemma finite_double : forall z, valid_binary 53 1024 z = true -> is_finite_SF z = true -> is_double (value z).
Proof.
  intros [s|s| |s m e] V Fz; try discriminate.
  - exists 0%Z, 0%Z. split; [cbn; lra|lia].
  - cbn [valid_binary] in V. unfold bounded in V. apply andb_true_iff in V. destruct V as [V1 V2]. unfold canonical_mantissa in V1. apply Zeq_bool_eq in V1. apply Zle_bool_imp_le in V2.
    unfold SpecFloat.fexp, emin in V1. rewrite Zpos_digits2_pos in V1.
    exists (SpecFloat.cond_Zopp s (Zpos m)), e. split; [|split].
    + unfold value, SF2R, F2R. cbn [Fnum Fexp]. now rewrite bpow_powerRZ.
    + assert (D : (Zdigits radix2 (Zpos m) <= 53)%Z) by lia.
      assert (A : (Z.abs (Zpos m) < 2 ^ 53)%Z) by (apply (@Zpower_gt_Zdigits radix2); exact D). destruct s; exact A.
    + lia.
Qed.
Lemma nearest_closest : forall v b, is_double b -> Rabs (nearest_even v - v) <= Rabs (b - v).
Proof.
  intros v b Hb. destruct (@round_N_pt radix2 (FLT_exp (-1074) 53) (@FLT_exp_valid (-1074) 53 p53) (fun x => negb (Z.even x)) v) as [_ H].
  apply H. now apply double_format.
Qed.
Lemma nearest_abs : forall v, Rabs (nearest_even v) = nearest_even (Rabs v).
Proof. intros v. unfold nearest_even. symmetry. apply round_NE_abs. apply (@FLT_exp_valid (-1074) 53 p53). Qed.
Definition limit : R := powerRZ 2 1024 - powerRZ 2 970.
Lemma p2 : forall k, powerRZ 2 k = bpow radix2 k. Proof. intros k. now rewrite bpow_powerRZ. Qed.
Lemma limit_up : nearest_even limit = bpow radix2 1024.
Proof.
  unfold limit. rewrite !p2. assert (E0 : bpow radix2 1024 = bpow radix2 971 * IZR (2 ^ 53)) by (change (IZR (2 ^ 53)) with (bpow radix2 53); now rewrite <- bpow_plus).
  assert (E1 : bpow radix2 970 = bpow radix2 971 * / 2) by (change (/ 2) with (bpow radix2 (-1)); now rewrite <- bpow_plus).
  assert (E2 : bpow radix2 1024 = bpow radix2 1023 * 2) by (change 2 with (bpow radix2 1); now rewrite <- bpow_plus).
  assert (E3 : bpow radix2 970 < bpow radix2 1023) by (apply bpow_lt; lia). pose proof (bpow_gt_0 radix2 970) as P0. pose proof (bpow_gt_0 radix2 971) as P1.
  assert (Mg : mag radix2 (bpow radix2 1024 - bpow radix2 970) = 1024%Z :> Z).
  { apply mag_unique. change (1024 - 1)%Z with 1023%Z. rewrite Rabs_pos_eq; lra. }
  unfold nearest_even, round, scaled_mantissa, cexp. rewrite Mg. change (FLT_exp (-1074) 53 1024) with 971%Z.
  replace ((bpow radix2 1024 - bpow radix2 970) * bpow radix2 (-(971))) with (IZR (2 ^ 53) - / 2).
  2: { rewrite E0, E1. assert (G : forall a b c, a * c = 1 -> (a * b - a * / 2) * c = b - / 2).
       { intros a b c K. replace ((a * b - a * / 2) * c) with (a * c * (b - / 2)) by ring. rewrite K. ring. }
       symmetry. apply G. rewrite <- bpow_plus. reflexivity. }
  assert (Fl : Zfloor (IZR (2 ^ 53) - / 2) = (2 ^ 53 - 1)%Z).
  { apply Zfloor_imp. rewrite plus_IZR, !minus_IZR. lra. }
  assert (Z1 : ZnearestE (IZR (2 ^ 53) - / 2) = (2 ^ 53)%Z).
  { unfold Znearest. rewrite Fl. rewrite Rcompare_Eq by (rewrite minus_IZR; lra).
    replace (negb (Z.even (2 ^ 53 - 1))) with true by reflexivity. apply Zceil_imp. rewrite minus_IZR. lra. }
  rewrite Z1. unfold F2R. cbn [Fnum Fexp]. rewrite E0. ring.
Qed.
Lemma limit_iff : forall v, bpow radix2 1024 <= Rabs (nearest_even v) <-> limit <= Rabs v.
Proof.
  intros v. rewrite nearest_abs. set (w := Rabs v). assert (Hw : 0 <= w) by apply Rabs_pos. clearbody w. split; intros H.
  - destruct (Rle_or_lt limit w) as [C|C]; [exact C|]. exfalso. revert H. apply Rlt_not_le. unfold limit in C. rewrite !p2 in C.
    set (M := powerRZ 2 1024 - powerRZ 2 971).
    assert (E : bpow radix2 971 = bpow radix2 970 * 2) by (change 2 with (bpow radix2 1); now rewrite <- bpow_plus).
    assert (E0 : bpow radix2 1024 = bpow radix2 971 * IZR (2 ^ 53)) by (change (IZR (2 ^ 53)) with (bpow radix2 53); now rewrite <- bpow_plus).
    pose proof (bpow_gt_0 radix2 970) as P0.
    assert (DM : is_double M). { exists (2 ^ 53 - 1)%Z, 971%Z. split; [|lia]. unfold M. rewrite !p2, E0, minus_IZR. ring. }
    unfold M in DM. rewrite !p2 in DM. destruct (Rle_or_lt w (bpow radix2 1024 - bpow radix2 971)) as [L|L].
    + apply Rle_lt_trans with (bpow radix2 1024 - bpow radix2 971); [|lra]. unfold nearest_even. apply round_le_generic; [apply (@FLT_exp_valid (-1074) 53 p53)|apply valid_rnd_N|now apply double_format|exact L].
    + pose proof (nearest_closest w DM) as N. rewrite (Rabs_left (_ - _ - w)) in N by lra. destruct (Rlt_or_le (nearest_even w) (bpow radix2 1024)) as [K|K]; [exact K|]. exfalso.
      rewrite Rabs_pos_eq in N by lra. lra.
  - rewrite <- limit_up. unfold nearest_even. apply round_le; [apply (@FLT_exp_valid (-1074) 53 p53)|apply valid_rnd_N|exact H].
Qed.
