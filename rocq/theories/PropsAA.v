(** C115: the integer conversions of configuration numbers. *)
From Coq Require Import ZArith.
From Verif Require Import PropsH PropsW.
From Verif Require Import Base Core Comb Closure Text Json JsonSpec Hocon HoconSpec HoconComplete HoconNumber.
Set Implicit Arguments.
Local Open Scope string_scope.
Local Open Scope nat_scope.
Local Open Scope list_scope.

(** The numbers of an integer type. *)
Definition fits (t : itype) (z : Z) : Prop :=
  match t with
  | I8 => - 2 ^ 7 <= z < 2 ^ 7 | I16 => - 2 ^ 15 <= z < 2 ^ 15 | I32 => - 2 ^ 31 <= z < 2 ^ 31 | I64 => - 2 ^ 63 <= z < 2 ^ 63 | I128 => - 2 ^ 127 <= z < 2 ^ 127
  | U8 => 0 <= z < 2 ^ 8 | U16 => 0 <= z < 2 ^ 16 | U32 => 0 <= z < 2 ^ 32 | U64 => 0 <= z < 2 ^ 64 | U128 => 0 <= z < 2 ^ 128
  end%Z.
Definition unsigned (t : itype) : bool := match t with U8 | U16 | U32 | U64 | U128 => true | _ => false end.
(** [z] is [d] rounded towards zero: as far from zero as [d] or less far, by less than one, on the same side. *)
Definition rounded (d : decimal) (z : Z) : Prop :=
  (Z.abs z * 10 ^ Z.of_nat (d_scale d) <= Z.of_N (d_mant d) < (Z.abs z + 1) * 10 ^ Z.of_nat (d_scale d))%Z /\
  (if d_neg d then z <= 0 else 0 <= z)%Z.
(** What rust_decimal guarantees. *)
Definition is_decimal (d : decimal) : Prop := (d_mant d < 2 ^ 96)%N.

Definition signed_trunc (d : decimal) : Z := (if d_neg d then - Z.of_N (d_trunc d) else Z.of_N (d_trunc d))%Z.
Lemma rounded_trunc : forall d z, rounded d z <-> z = signed_trunc d.
Proof.
  intros [n m k] z. unfold rounded, signed_trunc, d_trunc, ten_to. cbn [d_mant d_scale d_neg].
  assert (P : (0 < 10 ^ N.of_nat k)%N) by (apply N.neq_0_lt_0, N.pow_nonzero; discriminate).
  pose proof (N.div_mod m (10 ^ N.of_nat k) ltac:(lia)) as D. pose proof (N.mod_lt m (10 ^ N.of_nat k) ltac:(lia)) as R.
  replace (10 ^ Z.of_nat k)%Z with (Z.of_N (10 ^ N.of_nat k)) by (rewrite N2Z.inj_pow, nat_N_Z; reflexivity).
  remember (10 ^ N.of_nat k)%N as T. remember (m / T)%N as q. remember (m mod T)%N as r. clear Heqq Heqr HeqT. split.
  - intros [[H1 H2] H3]. assert (Z.abs z = Z.of_N q) by nia. destruct n; lia.
  - intros E. assert (Z.abs z = Z.of_N q) by (destruct n; lia). rewrite H. split; [split; nia|destruct n; lia].
Qed.
Lemma trunc_small : forall d, is_decimal d -> (d_trunc d < 2 ^ 96)%N.
Proof.
  intros d H. unfold is_decimal in H. unfold d_trunc, ten_to. eapply N.le_lt_trans; [|exact H]. apply N.div_le_upper_bound; [apply N.pow_nonzero; discriminate|].
  assert (P : (0 < 10 ^ N.of_nat (d_scale d))%N) by (apply N.neq_0_lt_0, N.pow_nonzero; discriminate). nia.
Qed.
Lemma cast_spec : forall lo hi o z, cast_to lo hi o = Some z <-> o = Some z /\ (lo <= z < hi)%Z.
Proof.
  intros lo hi [y|] z; cbn; [|split; [discriminate|intros []; discriminate]].
  destruct (Z.leb_spec lo y), (Z.ltb_spec y hi); cbn; (split; [intros K; inv K; auto|intros [K L]; inv K; try reflexivity; lia]).
Qed.
Lemma i64_spec : forall d z, d_to_i64 d = Some z <-> z = signed_trunc d /\ fits I64 z.
Proof.
  intros d z. unfold d_to_i64. fold (signed_trunc d). cbn [fits]. destruct (Z.leb_spec (- 2 ^ 63) (signed_trunc d)), (Z.ltb_spec (signed_trunc d) (2 ^ 63)); cbn [andb]; split; intros K; try discriminate; try (destruct K; exfalso; lia).
  - inv K. auto.
  - destruct K as [-> _]. reflexivity.
Qed.
Lemma u64_spec : forall d z, option_map Z.of_N (d_to_u64 d) = Some z <-> d_neg d = false /\ z = signed_trunc d /\ fits U64 z.
Proof.
  intros d z. unfold d_to_u64, signed_trunc. cbn [fits]. destruct (d_neg d); [split; [discriminate|intros []; discriminate]|].
  destruct (N.ltb_spec (d_trunc d) (2 ^ 64)); cbn; split; intros K; try discriminate.
  - inv K. repeat split; lia.
  - destruct K as (_ & -> & _). reflexivity.
  - exfalso. lia.
Qed.
(** C115: a conversion to a signed type gives the number rounded towards zero, exactly when that number belongs to the type. *)
Theorem C115_signed : forall t d z, unsigned t = false -> is_decimal d -> (num_to t d = Some z <-> rounded d z /\ fits t z).
Proof.
  intros t d z Ht Hd. rewrite rounded_trunc. pose proof (trunc_small Hd) as B.
  assert (W : forall lo hi, (- 2 ^ 63 <= lo -> hi <= 2 ^ 63 -> (cast_to lo hi (d_to_i64 d) = Some z <-> z = signed_trunc d /\ lo <= z < hi))%Z).
  { intros lo hi H1 H2. rewrite cast_spec, i64_spec. cbn [fits]. intuition lia. }
  destruct t; try discriminate; cbn [num_to fits].
  - apply W; lia.
  - apply W; lia.
  - apply W; lia.
  - apply i64_spec.
  - unfold d_to_i128. fold (signed_trunc d). split; [intros E; inv E; split; [reflexivity|]|intros [-> _]; reflexivity]. unfold signed_trunc. destruct (d_neg d); lia.
Qed.
(** C115: to an unsigned type also, but a decimal with a minus sign is refused, even if it is rounded to zero. *)
Theorem C115_unsigned_partial : forall t d z, unsigned t = true -> is_decimal d -> (num_to t d = Some z <-> d_neg d = false /\ rounded d z /\ fits t z).
Proof.
  intros t d z Ht Hd. rewrite rounded_trunc. pose proof (trunc_small Hd) as B.
  assert (W : forall hi, (hi <= 2 ^ 64 -> (cast_to 0 hi (option_map Z.of_N (d_to_u64 d)) = Some z <-> d_neg d = false /\ z = signed_trunc d /\ 0 <= z < hi))%Z).
  { intros hi H2. rewrite cast_spec, u64_spec. cbn [fits]. intuition lia. }
  destruct t; try discriminate; cbn [num_to fits].
  - apply W; lia.
  - apply W; lia.
  - apply W; lia.
  - apply u64_spec.
  - unfold d_to_u128, signed_trunc. destruct (d_neg d); [split; [discriminate|intros []; discriminate]|]. split; [intros E; inv E; repeat split; lia|intros (_ & -> & _); reflexivity].
Qed.
Theorem C115_unsigned_refuted : exists d, is_decimal d /\ rounded d 0 /\ forall t, unsigned t = true -> fits t 0 /\ num_to t d = None.
Proof.
  exists (Dec true 5 1). split; [reflexivity|]. split; [unfold rounded; cbn; lia|]. intros t Ht. destruct t; try discriminate; (split; [unfold fits; lia|reflexivity]).
Qed.
(** C115: an integer put into a number comes back, in its own type and in every other type that it belongs to. *)
Theorem C115_comes_back : forall t u z, fits t z -> fits u z -> (Z.abs z < 2 ^ 96)%Z -> exists d, num_from t z = ROk d /\ is_decimal d /\ num_to u d = Some z.
Proof.
  intros t u z Ht Hu Hz. exists (Dec (z <? 0)%Z (Z.abs_N z) 0). assert (D : is_decimal (Dec (z <? 0)%Z (Z.abs_N z) 0)) by (unfold is_decimal; cbn; lia). split; [|split; [exact D|]].
  - destruct t; try reflexivity; cbn [num_from]; (destruct (Z.ltb_spec (Z.abs z) (2 ^ 96)); [reflexivity|lia]).
  - assert (R : rounded (Dec (z <? 0)%Z (Z.abs_N z) 0) z) by (unfold rounded; cbn [d_mant d_scale d_neg]; change (10 ^ Z.of_nat 0)%Z with 1%Z; destruct (Z.ltb_spec z 0); lia).
    destruct (unsigned u) eqn:Eu; [apply C115_unsigned_partial; auto|now apply C115_signed]. split; [|auto]. cbn. apply Z.ltb_ge. destruct u; try discriminate; cbn in Hu; lia.
Qed.
(** C115: only the 128 bit types have numbers for which that panics. *)
Theorem C115_from_panics : forall t z, fits t z -> (num_from t z = RPanic <-> (2 ^ 96 <= Z.abs z)%Z).
Proof.
  intros t z Ht. destruct t; cbn [num_from fits] in *; try (split; [discriminate|]; intros K; exfalso; lia).
  - destruct (Z.ltb_spec (Z.abs z) (2 ^ 96)); split; intros K; try discriminate; try reflexivity; lia.
  - destruct (Z.ltb_spec (Z.abs z) (2 ^ 96)); split; intros K; try discriminate; try reflexivity; lia.
Qed.
Theorem C115_from_returns_refuted : exists t z, fits t z /\ num_from t z = RPanic.
Proof. exists U128, (2 ^ 96)%Z. split; [cbn; lia|reflexivity]. Qed.

(** C115: a number written in a document (the sign is lost, see C53) and converted. *)
Theorem C115_document : forall k i f s t, g_path k -> number_text i f s ->
  exists d, hocon_p d_read (k ++ bs " = " ++ s) 0 = Success [CObj [(k, CNum d)]] (length (k ++ bs " = " ++ s)) /\
    forall z, num_to t d = Some z <-> z = Z.of_N (dec_value i) /\ fits t z.
Proof.
  intros k i f s t Hk Hs. exists (Dec false (dec_value (i ++ f)) (length f)). pose proof (read_number Hs) as Hr. destruct Hs as (Hi & Hf & Hl & ->). split.
  - apply doc_complete. apply hd_root with (a := []) (ps := [(k, CNum (Dec false (dec_value (i ++ f)) (length f)))]).
    + exists [], []. split; [reflexivity|]. split; [exists [], []; split; [reflexivity|]; split; constructor|constructor].
    + set (s := i ++ match f with [] => [] | _ => bs "." ++ f end) in *.
      assert (E : k ++ bs " = " ++ s = (k ++ bs " " ++ bs "=" ++ bs " " ++ s) ++ []) by (rewrite app_nil_r; reflexivity).
      match goal with |- hroot _ ?x _ => change x with (k ++ bs " = " ++ s) end. rewrite E. apply hr_one; [exists [], []; split; [reflexivity|]; split; constructor|].
      assert (Wsp : ws (bs " ")) by (repeat constructor).
      apply hk_kv; [left; now split|exists (bs " "), []; split; [reflexivity|split; [exact Wsp|constructor]]|now left| |].
      * exists [], (bs " "). split; [reflexivity|]. split; [exists [], []; split; [reflexivity|]; split; constructor|exact Wsp].
      * apply hv_num; [|exact Hr|exact I|intros w Hw u Hu; cbn in Hw; intuition (subst; discriminate)].
        exists i, (match f with [] => [] | _ => bs "." ++ f end), []. split; [unfold s; now rewrite app_nil_r|]. split; [exact Hi|]. split; [|split; [now left|congruence]].
        destruct f as [|y f]; [now left|]. right. exists (y :: f). split; [reflexivity|]. split; [exact Hf|discriminate].
    + cbn. constructor; [intros []|constructor].
  - intros z.
    assert (D : is_decimal (Dec false (dec_value (i ++ f)) (length f))).
    { unfold is_decimal. cbn [d_mant]. eapply N.lt_le_trans; [apply dec_value_bound|].
      - apply Forall_app. split; [|exact Hf]. now apply g_int_all.
      - unfold ten_to. eapply N.le_trans; [apply N.pow_le_mono_r with (c := 28%N); [discriminate|]|vm_compute; discriminate]. rewrite app_length in *. lia. }
    assert (R : rounded (Dec false (dec_value (i ++ f)) (length f)) z <-> z = Z.of_N (dec_value i)).
    { rewrite rounded_trunc. unfold signed_trunc. cbn [d_neg]. now rewrite trunc_read by exact Hf. }
    destruct (unsigned t) eqn:Et.
    + rewrite C115_unsigned_partial by assumption. rewrite R. cbn [d_neg]. intuition.
    + rewrite C115_signed by assumption. now rewrite R.
Qed.
Example C115_case : is_decimal (Dec true 1280 1) /\ num_to I8 (Dec true 1280 1) = Some (-128)%Z /\ num_to I8 (Dec false 1280 1) = None /\ num_to U8 (Dec false 2559 1) = Some 255%Z /\
  num_to U8 (Dec true 9 1) = None /\ num_to I16 (Dec true 9 1) = Some 0%Z /\ fits U128 (2 ^ 96) /\ g_path (bs "a.b") /\
  exists s, number_text (bs "90") (bs "50") s /\ hocon_p d_read (bs "a.b" ++ bs " = " ++ s) 0 = Success [CObj [(bs "a.b", CNum (Dec false 9050 2))]] 11.
Proof.
  repeat (split; [vm_compute; (reflexivity || (split; [discriminate|reflexivity]))|]). split.
  - change (bs "a.b") with (bs "a" ++ bs "." ++ bs "b"). apply gp_more; [discriminate| |apply gp_one; [discriminate|]]; (constructor; [left; unfold letter; cbn; lia|constructor]).
  - exists (bs "90.50"). split; [|vm_compute; reflexivity]. split; [|split; [|split; [vm_compute; lia|reflexivity]]].
    + right. exists 57%N, [48%N]. split; [reflexivity|]. split; [lia|]. repeat constructor; discriminate.
    + repeat constructor; discriminate.
Qed.
Print Assumptions C115_signed.
Print Assumptions C115_unsigned_partial.
Print Assumptions C115_unsigned_refuted.
Print Assumptions C115_comes_back.
Print Assumptions C115_from_panics.
Print Assumptions C115_from_returns_refuted.
Print Assumptions C115_document.
