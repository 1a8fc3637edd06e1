(** The functions of the Rust standard library used by the applications on texts: UTF-8 validation, decimal and hexadecimal
    numbers.  These are models of the standard library (not of code in /repo). *)
From Verif Require Import Base Core Comb Closure.
Set Implicit Arguments.

(** ** String::from_utf8: the well-formed byte sequences (Unicode 15, table 3-7); a String is its bytes. *)
Definition cont (x : N) : bool := in_range 128 191 x.
Fixpoint utf8_valid (s : list N) : bool :=
  match s with
  | [] => true
  | a :: t =>
      if (a <? 128)%N then utf8_valid t
      else match t with
           | [] => false
           | b :: t2 =>
               if in_range 194 223 a then cont b && utf8_valid t2
               else match t2 with
                    | [] => false
                    | c :: t3 =>
                        if (a =? 224)%N then in_range 160 191 b && cont c && utf8_valid t3
                        else if in_range 225 236 a || in_range 238 239 a then cont b && cont c && utf8_valid t3
                        else if (a =? 237)%N then in_range 128 159 b && cont c && utf8_valid t3
                        else match t3 with
                             | [] => false
                             | d :: t4 =>
                                 if (a =? 240)%N then in_range 144 191 b && cont c && cont d && utf8_valid t4
                                 else if in_range 241 243 a then cont b && cont c && cont d && utf8_valid t4
                                 else if (a =? 244)%N then in_range 128 143 b && cont c && cont d && utf8_valid t4
                                 else false
                             end
                    end
           end
  end.
Definition from_utf8 (s : list N) : list N + unit := if utf8_valid s then inl s else inr tt.

Definition ascii (s : list N) : Prop := Forall (fun x => x < 128)%N s.
Lemma ascii_utf8 : forall s, ascii s -> from_utf8 s = inl s.
Proof.
  intros s H. unfold from_utf8. replace (utf8_valid s) with true; [reflexivity|].
  induction H as [|x s Hx H IH]; [reflexivity|]. cbn. destruct (N.ltb_spec x 128); [exact IH|lia].
Qed.

(** ** Decimal numbers *)
Definition digit (x : N) : Prop := (48 <= x <= 57)%N.
(** The value of a digit string. *)
Definition dec_value (s : list N) : N := fold_left (fun acc c => acc * 10 + (c - 48))%N s 0%N.
(** No superfluous leading zero. *)
Definition canonical (s : list N) : Prop :=
  Forall digit s /\ s <> [] /\ match s with x :: _ :: _ => x <> 48%N | _ => True end.

(** u8/u16/u64::from_str: an optional '+', then digits; Err on overflow. *)
Definition parse_uint (max : N) (s : list N) : N + unit :=
  let ds := match s with 43%N :: t => t | _ => s end in
  match ds with
  | [] => inr tt
  | _ => if forallb is_ascii_digit ds then (if (dec_value ds <=? max)%N then inl (dec_value ds) else inr tt) else inr tt
  end.

(** Display of an unsigned integer. *)
Fixpoint show_fuel (f : nat) (n : N) : list N :=
  match f with
  | O => []
  | S f' => if (n <? 10)%N then [48 + n]%N else show_fuel f' (n / 10)%N ++ [48 + n mod 10]%N
  end.
Definition show_dec (n : N) : list N := show_fuel (S (N.size_nat n)) n.

Lemma is_digit_iff : forall x, is_ascii_digit x = true <-> digit x.
Proof. intros x. unfold is_ascii_digit, in_range, digit. rewrite andb_true_iff, !N.leb_le. cbn. lia. Qed.

Lemma dec_value_snoc : forall s c, dec_value (s ++ [c]) = (dec_value s * 10 + (c - 48))%N.
Proof. intros s c. unfold dec_value. now rewrite fold_left_app. Qed.
Lemma show_fuel_ok : forall f n, (n < 2 ^ N.of_nat f)%N ->
  dec_value (show_fuel (S f) n) = n /\ canonical (show_fuel (S f) n).
Proof.
  induction f as [|f IH]; intros n Hn.
  - cbn in Hn. assert (n = 0)%N by lia. subst n. cbn. split; [reflexivity|]. repeat split; try discriminate.
    constructor; [unfold digit; lia|constructor].
  - change (show_fuel (S (S f)) n) with
      (if (n <? 10)%N then [48 + n]%N else show_fuel (S f) (n / 10)%N ++ [48 + n mod 10]%N).
    destruct (N.ltb_spec n 10) as [H|H].
    + unfold dec_value. cbn [fold_left]. split; [lia|]. repeat split; try discriminate. constructor; [unfold digit; lia|constructor].
    + assert (Hd : (n / 10 < 2 ^ N.of_nat f)%N).
      { rewrite Nat2N.inj_succ, N.pow_succ_r' in Hn. apply N.div_lt_upper_bound; lia. }
      destruct (IH _ Hd) as [V (C1 & C2 & C3)].
      pose proof (N.mod_lt n 10 ltac:(lia)) as Hm. pose proof (N.div_mod n 10 ltac:(lia)) as E.
      rewrite dec_value_snoc, V. set (q := (n / 10)%N) in *. set (r := (n mod 10)%N) in *. split; [lia|]. split; [|split].
      * apply Forall_app. split; [exact C1|]. constructor; [unfold digit; lia|constructor].
      * intros Ex. apply app_eq_nil in Ex. destruct Ex; discriminate.
      * destruct (show_fuel (S f) q) as [|x [|y l]] eqn:Es; [now destruct (C2 eq_refl)| |exact C3].
        cbn. cbn in V. intros ->. assert (0 < q)%N; [|lia]. apply N.div_str_pos. lia.
Qed.
Lemma size_nat_bound : forall n, (n < 2 ^ N.of_nat (N.size_nat n))%N.
Proof.
  intros n. replace (N.of_nat (N.size_nat n)) with (N.size n); [apply N.size_gt|].
  destruct n as [|p]; [reflexivity|]. cbn. induction p as [p IH|p IH|]; cbn; try rewrite IH; try reflexivity; try lia.
Qed.
Lemma show_dec_value : forall n, dec_value (show_dec n) = n.
Proof. intros n. exact (proj1 (show_fuel_ok _ (size_nat_bound n))). Qed.
Lemma show_dec_canonical : forall n, canonical (show_dec n).
Proof. intros n. exact (proj2 (show_fuel_ok _ (size_nat_bound n))). Qed.

Lemma snoc_cases : forall A (l : list A), l = [] \/ exists l' x, l = l' ++ [x].
Proof. intros A l. destruct l as [|a l] using rev_ind; [now left|right; eauto]. Qed.
Lemma value_pos : forall s, Forall digit s -> match s with [] => False | x :: _ => x <> 48%N end -> (0 < dec_value s)%N.
Proof.
  intros s. induction s as [|c s IH] using rev_ind; intros H Hh; [contradiction|].
  apply Forall_app in H. destruct H as [H Hc]. inv Hc. unfold digit in *. rewrite dec_value_snoc.
  destruct s as [|x s]; [cbn in *; lia|]. cbn in Hh. specialize (IH H Hh). lia.
Qed.
(** A canonical numeral is determined by its value. *)
Lemma canonical_inj : forall s t, canonical s -> canonical t -> dec_value s = dec_value t -> s = t.
Proof.
  intros s. induction s as [|c s IH] using rev_ind; intros t (A1 & A2 & A3) (B1 & B2 & B3) E; [congruence|].
  destruct (snoc_cases t) as [->|(t' & d & ->)]; [congruence|].
  rewrite !dec_value_snoc in E. apply Forall_app in A1, B1. destruct A1 as [A1 Ac], B1 as [B1 Bd]. inv Ac. inv Bd.
  unfold digit in *. assert (dec_value s = dec_value t' /\ c = d) as [Ev ->] by lia. f_equal.
  destruct s as [|x s], t' as [|y t']; [reflexivity| | |].
  - exfalso. cbn [app] in B3. assert (0 < dec_value (y :: t'))%N; [|cbn in *; lia]. apply value_pos; [exact B1|].
    destruct t'; exact B3.
  - exfalso. cbn [app] in A3. assert (0 < dec_value (x :: s))%N; [|cbn in *; lia]. apply value_pos; [exact A1|].
    destruct s; exact A3.
  - apply IH; [| |exact Ev]; (split; [assumption|]; split; [discriminate|]).
    + destruct s; [exact Logic.I|exact A3].
    + destruct t'; [exact Logic.I|exact B3].
Qed.
Lemma show_value : forall s, canonical s -> show_dec (dec_value s) = s.
Proof. intros s H. apply canonical_inj; [apply show_dec_canonical|exact H|apply show_dec_value]. Qed.
Lemma digits_forallb : forall s, Forall digit s -> forallb is_ascii_digit s = true.
Proof. intros s H. apply forallb_forall. intros x Hx. apply is_digit_iff. now apply (proj1 (Forall_forall _ _) H). Qed.
Lemma parse_uint_digits : forall max s, Forall digit s -> s <> [] -> (dec_value s <= max)%N ->
  parse_uint max s = inl (dec_value s).
Proof.
  intros max s H Hne Hv. unfold parse_uint. destruct s as [|x s]; [congruence|].
  assert (E : match x with 43%N => s | _ => x :: s end = x :: s).
  { inv H. unfold digit in *. destruct x as [|p]; [lia|]. do 6 (destruct p as [p|p|]; try reflexivity); lia. }
  cbn zeta. rewrite E. rewrite (digits_forallb H). destruct (N.leb_spec (dec_value (x :: s)) max); [reflexivity|lia].
Qed.
Lemma parse_uint_overflow : forall max s, Forall digit s -> (max < dec_value s)%N -> parse_uint max s = inr tt.
Proof.
  intros max s H Hv. unfold parse_uint. destruct s as [|x s]; [reflexivity|].
  assert (E : match x with 43%N => s | _ => x :: s end = x :: s).
  { inv H. unfold digit in *. destruct x as [|p]; [lia|]. do 6 (destruct p as [p|p|]; try reflexivity); lia. }
  cbn zeta. rewrite E. rewrite (digits_forallb H). destruct (N.leb_spec (dec_value (x :: s)) max); [lia|reflexivity].
Qed.
Lemma parse_uint_inv : forall max s v, Forall digit s -> parse_uint max s = inl v ->
  s <> [] /\ v = dec_value s /\ (v <= max)%N.
Proof.
  intros max s v H E. destruct (N.le_gt_cases (dec_value s) max) as [L|L].
  - destruct s as [|x s]; [discriminate|]. rewrite parse_uint_digits in E by (assumption || discriminate). inv E. now split.
  - rewrite parse_uint_overflow in E by assumption. discriminate.
Qed.

(** A hexadecimal digit. *)
Definition hexdig (x : N) : Prop := (48 <= x <= 57 \/ 65 <= x <= 70 \/ 97 <= x <= 102)%N.
(** u16::from_str_radix(_, 16) on hexadecimal digits (at most 4: no overflow). *)
Definition hex_digit_value (c : N) : N :=
  if in_range 48 57 c then (c - 48)%N else if in_range 97 102 c then (c - 87)%N else (c - 55)%N.
Definition hex_value (s : list N) : N := fold_left (fun acc c => acc * 16 + hex_digit_value c)%N s 0%N.
Definition parse_hex (max : N) (s : list N) : N + unit :=
  match s with
  | [] => inr tt
  | _ => if forallb is_ascii_hex_digit s then (if (hex_value s <=? max)%N then inl (hex_value s) else inr tt) else inr tt
  end.

Lemma hexdig_iff : forall x, is_ascii_hex_digit x = true <-> hexdig x.
Proof.
  intros x. unfold is_ascii_hex_digit, in_range, hexdig. rewrite !orb_true_iff, !andb_true_iff, !N.leb_le. lia.
Qed.
Lemma hex_value_bound : forall s, Forall hexdig s -> (hex_value s < 16 ^ N.of_nat (length s))%N.
Proof.
  intros s. induction s as [|c s IH] using rev_ind; intros H; [reflexivity|].
  apply Forall_app in H. destruct H as [H1 H2]. inv H2. specialize (IH H1).
  unfold hex_value in *. rewrite fold_left_app, app_length, Nat.add_1_r, Nat2N.inj_succ, N.pow_succ_r'. cbn [fold_left].
  assert (hex_digit_value c < 16)%N; [|lia].
  unfold hex_digit_value, in_range. unfold hexdig in *.
  destruct (N.leb_spec 48 c), (N.leb_spec c 57), (N.leb_spec 97 c), (N.leb_spec c 102); cbn [andb]; lia.
Qed.
(** ** Valid UTF-8 splits at ASCII bytes and is closed under concatenation. *)
Lemma utf8_step4 : forall y y2 y3 y4 t, utf8_valid (y :: y2 :: y3 :: y4 :: t) =
  if (y <? 128)%N then utf8_valid (y2 :: y3 :: y4 :: t)
  else if in_range 194 223 y then cont y2 && utf8_valid (y3 :: y4 :: t)
  else if (y =? 224)%N then in_range 160 191 y2 && cont y3 && utf8_valid (y4 :: t)
  else if in_range 225 236 y || in_range 238 239 y then cont y2 && cont y3 && utf8_valid (y4 :: t)
  else if (y =? 237)%N then in_range 128 159 y2 && cont y3 && utf8_valid (y4 :: t)
  else if (y =? 240)%N then in_range 144 191 y2 && cont y3 && cont y4 && utf8_valid t
  else if in_range 241 243 y then cont y2 && cont y3 && cont y4 && utf8_valid t
  else if (y =? 244)%N then in_range 128 143 y2 && cont y3 && cont y4 && utf8_valid t
  else false.
Proof. reflexivity. Qed.
Lemma utf8_split : forall n a x b, length a <= n -> (x < 128)%N -> utf8_valid (a ++ x :: b) = utf8_valid a && utf8_valid b.
Proof.
  induction n as [|n IH]; intros a x b Hn Hx.
  - destruct a; [|cbn in Hn; lia]. cbn. destruct (N.ltb_spec x 128); [reflexivity|lia].
  - assert (Hc : cont x = false) by (unfold cont, in_range; destruct (N.leb_spec 128 x); [lia|reflexivity]).
    assert (Hr : forall lo hi, (128 <= lo)%N -> in_range lo hi x = false).
    { intros lo hi H. unfold in_range. destruct (N.leb_spec lo x); [lia|reflexivity]. }
    destruct a as [|y [|y2 [|y3 [|y4 a]]]]; [cbn [app utf8_valid] ..|]; cbn [List.length] in Hn.
    + destruct (N.ltb_spec x 128); [reflexivity|lia].
    + destruct (y <? 128)%N.
      * destruct (N.ltb_spec x 128); [reflexivity|lia].
      * rewrite Hc, !Hr by lia. destruct (in_range 194 223 y); [reflexivity|].
        destruct b as [|b1 b]; [reflexivity|]. destruct (y =? 224)%N; [reflexivity|]. destruct (in_range 225 236 y || in_range 238 239 y); [reflexivity|].
        destruct (y =? 237)%N; [reflexivity|]. destruct b as [|b2 b]; [reflexivity|].
        destruct (y =? 240)%N; [reflexivity|]. destruct (in_range 241 243 y); [reflexivity|]. destruct (y =? 244)%N; reflexivity.
    + destruct (y <? 128)%N.
      * exact (IH [y2] x b ltac:(cbn; lia) Hx).
      * destruct (in_range 194 223 y).
        { rewrite <- andb_assoc. f_equal. exact (IH [] x b ltac:(cbn; lia) Hx). }
        rewrite Hc, !andb_false_r. destruct (y =? 224)%N; [reflexivity|]. destruct (in_range 225 236 y || in_range 238 239 y); [reflexivity|].
        destruct (y =? 237)%N; [reflexivity|]. destruct b as [|b1 b]; [reflexivity|]. cbn [andb].
        destruct (y =? 240)%N; [reflexivity|]. destruct (in_range 241 243 y); [reflexivity|]. destruct (y =? 244)%N; reflexivity.
    + destruct (y <? 128)%N.
      * exact (IH [y2; y3] x b ltac:(cbn; lia) Hx).
      * destruct (in_range 194 223 y).
        { rewrite <- andb_assoc. f_equal. exact (IH [y3] x b ltac:(cbn; lia) Hx). }
        assert (E : utf8_valid (x :: b) = utf8_valid b) by (cbn; destruct (N.ltb_spec x 128); [reflexivity|lia]).
        cbn [utf8_valid] in E. rewrite E. rewrite !andb_true_r, Hc, !andb_false_r.
        destruct (y =? 224)%N; [reflexivity|]. destruct (in_range 225 236 y || in_range 238 239 y); [reflexivity|]. destruct (y =? 237)%N; [reflexivity|].
        cbn [andb]. destruct (y =? 240)%N; [reflexivity|]. destruct (in_range 241 243 y); [reflexivity|]. destruct (y =? 244)%N; reflexivity.
    + change (utf8_valid (y :: y2 :: y3 :: y4 :: a ++ x :: b) = utf8_valid (y :: y2 :: y3 :: y4 :: a) && utf8_valid b).
      rewrite !(utf8_step4 y y2 y3 y4).
      pose proof (IH (y2 :: y3 :: y4 :: a) x b ltac:(cbn; lia) Hx) as E2. pose proof (IH (y3 :: y4 :: a) x b ltac:(cbn; lia) Hx) as E3.
      pose proof (IH (y4 :: a) x b ltac:(cbn; lia) Hx) as E4. pose proof (IH a x b ltac:(cbn; lia) Hx) as E5.
      rewrite <- !app_comm_cons in *. rewrite E2, E3, E4, E5.
      repeat match goal with |- (if ?c then _ else _) = _ => destruct c end; rewrite ?andb_assoc; reflexivity.
Qed.
Lemma utf8_app : forall n a b, length a <= n -> utf8_valid a = true -> utf8_valid (a ++ b) = utf8_valid b.
Proof.
  induction n as [|n IH]; intros a b Hn Ha.
  - destruct a; [reflexivity|cbn in Hn; lia].
  - destruct a as [|y [|y2 [|y3 [|y4 a]]]]; cbn [List.length] in Hn.
    + reflexivity.
    + cbn [app utf8_valid] in *. destruct (y <? 128)%N; [reflexivity|discriminate].
    + cbn [app utf8_valid] in Ha |- *. destruct (y <? 128)%N; [apply (IH [y2]); [cbn; lia|exact Ha]|].
      destruct (in_range 194 223 y); [|discriminate]. apply andb_true_iff in Ha. destruct Ha as [-> _]. reflexivity.
    + cbn [app utf8_valid] in Ha |- *. destruct (y <? 128)%N; [apply (IH [y2; y3]); [cbn; lia|exact Ha]|].
      destruct (in_range 194 223 y).
      { apply andb_true_iff in Ha. destruct Ha as [-> Ha]. apply (IH [y3]); [cbn; lia|exact Ha]. }
      rewrite andb_true_r in *.
      destruct (y =? 224)%N; [now rewrite Ha|]. destruct (in_range 225 236 y || in_range 238 239 y); [rewrite andb_true_r in *; now rewrite Ha|].
      destruct (y =? 237)%N; [rewrite andb_true_r in *; now rewrite Ha|discriminate].
    + change (utf8_valid (y :: y2 :: y3 :: y4 :: a ++ b) = utf8_valid b). rewrite (utf8_step4 y y2 y3 y4) in *.
      repeat match goal with H : (if ?c then _ else _) = true |- _ => destruct c; try discriminate end;
        repeat match goal with H : _ && _ = true |- _ => apply andb_true_iff in H; destruct H end;
        repeat match goal with H : ?c = true |- context[?c && _] => rewrite H end; cbn [andb];
        first [apply (IH (y2 :: y3 :: y4 :: a)); [cbn; lia|assumption]|apply (IH (y3 :: y4 :: a)); [cbn; lia|assumption]
              |apply (IH (y4 :: a)); [cbn; lia|assumption]|apply (IH a); [cbn; lia|assumption]].
Qed.
Lemma utf8_valid_split : forall a x b, (x < 128)%N -> utf8_valid (a ++ x :: b) = utf8_valid a && utf8_valid b.
Proof. intros a x b. apply utf8_split with (n := length a). lia. Qed.
Lemma utf8_valid_app : forall a b, utf8_valid a = true -> utf8_valid (a ++ b) = utf8_valid b.
Proof. intros a b. apply utf8_app with (n := length a). lia. Qed.

(** ** HashMap: an association list with at most one entry per key (the order of the entries is not observable in the code
    modelled, except through iteration). *)
(** std: HashMap::get. *)
Fixpoint hm_get {V} (m : list (list N * V)) (k : list N) : option V :=
  match m with
  | [] => None
  | (k', v) :: m' => if list_eq_dec N.eq_dec k k' then Some v else hm_get m' k
  end.
(** std: HashMap::insert (of a key that may be present) / the update through get_mut. *)
Fixpoint hm_set {V} (m : list (list N * V)) (k : list N) (v : V) : list (list N * V) :=
  match m with
  | [] => [(k, v)]
  | (k', v') :: m' => if list_eq_dec N.eq_dec k k' then (k', v) :: m' else (k', v') :: hm_set m' k v
  end.

Lemma hm_get_set : forall V (m : list (list N * V)) k v k',
  hm_get (hm_set m k v) k' = if list_eq_dec N.eq_dec k' k then Some v else hm_get m k'.
Proof.
  intros V m k v k'. induction m as [|[a b] m IH]; cbn [hm_get hm_set]; [reflexivity|].
  destruct (list_eq_dec N.eq_dec k a) as [->|Hka]; cbn [hm_get].
  - destruct (list_eq_dec N.eq_dec k' a) as [->|]; [reflexivity|reflexivity].
  - rewrite IH. destruct (list_eq_dec N.eq_dec k' a) as [->|]; [|reflexivity]. destruct (list_eq_dec N.eq_dec a k); [congruence|reflexivity].
Qed.
(** collect::<HashMap<_, _>>(): insert one after the other. *)
Definition hm_collect {V} (l : list (list N * V)) : list (list N * V) := fold_left (fun m kv => hm_set m (fst kv) (snd kv)) l [].
