(** Numbers and durations of hocon with concrete decimals: hocon/src/model/config_number_value.rs, config_duration_value.rs and the accessors
    of config_value.rs.  rust_decimal 1.35 and chrono 0.4.38 are modelled from their documentation. *)
From Coq Require Import ZArith.
From Verif Require Import Base Core Comb Text Hocon.
Set Implicit Arguments.
Local Open Scope string_scope.
Local Open Scope nat_scope.
Local Open Scope list_scope.

(** rust_decimal::Decimal: a sign, a mantissa below 2^96 and the number of decimal places. *)
Record decimal := Dec { d_neg : bool; d_mant : N; d_scale : nat }.
Definition ten_to (k : nat) : N := (10 ^ N.of_nat k)%N.
(** Decimal::trunc, without the sign. *)
Definition d_trunc (d : decimal) : N := (d_mant d / ten_to (d_scale d))%N.
(** Decimal::to_u64, used by config_number_value.rs 71-73. *)
Definition d_to_u64 (d : decimal) : option N := if d_neg d then None else if (d_trunc d <? 2 ^ 64)%N then Some (d_trunc d) else None.
(** Decimal::to_i64, used by config_number_value.rs 67-69. *)
Definition d_to_i64 (d : decimal) : option Z :=
  let z := (if d_neg d then - Z.of_N (d_trunc d) else Z.of_N (d_trunc d))%Z in
  if ((- 2 ^ 63 <=? z) && (z <? 2 ^ 63))%Z then Some z else None.
(** Decimal::from(u128) and Decimal::from(i64), used by config_number_value.rs 14-24; the former panics when the mantissa does not fit. *)
Definition d_of_u128 (n : N) : rs decimal := if (n <? 2 ^ 96)%N then ROk (Dec false n 0) else RPanic.
Definition d_of_i64 (z : Z) : decimal := Dec (z <? 0)%Z (Z.abs_N z) 0.
(** Decimal::from_str_radix(s, 10), used by config_number_value.rs 26-30, on unsigned texts of at most 28 digits: digits and at most one point;
    an exponent is an error.  Longer texts (which are rounded or refused) are not modelled: [None]. *)
Fixpoint d_split (s : list N) : list N * option (list N) :=
  match s with
  | [] => ([], None)
  | x :: t => if (x =? chr ".")%N then ([], Some t) else let (a, r) := d_split t in (x :: a, r)
  end.
Definition d_read (s : list N) : option decimal :=
  let (i, r) := d_split s in
  let f := match r with Some f => f | None => [] end in
  if forallb is_ascii_digit (i ++ f) && Nat.ltb 0 (length (i ++ f)) && Nat.leb (length (i ++ f)) 28
  then Some (Dec false (dec_value (i ++ f)) (length f)) else None.

(** ** config_duration_value.rs *)
(** std::time::Duration is its number of nanoseconds, below 2^64 * 10^9; chrono::Duration is its number of nanoseconds, at most i64::MAX
    milliseconds from zero. *)
Definition giga : N := 1000000000.
Definition std_max : N := (2 ^ 64 * giga)%N.
Definition chrono_max : Z := ((2 ^ 63 - 1) * 1000000)%Z.
Definition is_std (n : N) : Prop := (n < std_max)%N.
Definition is_chrono (z : Z) : Prop := (- chrono_max <= z <= chrono_max)%Z.
(** 20-25 *)
Definition from_std (n : N) : rs (decimal * time_unit) := rbind (d_of_u128 n) (fun d => ROk (d, UNanos)).
(** 27-32: num_nanoseconds().unwrap() *)
Definition from_chrono (z : Z) : rs (decimal * time_unit) :=
  if ((- 2 ^ 63 <=? z) && (z <? 2 ^ 63))%Z then ROk (d_of_i64 z, UNanos) else RPanic.
(** chrono::Duration::milliseconds, seconds, minutes, hours and days panic out of bounds; nanoseconds and microseconds do not. *)
Definition chrono_new (z : Z) : rs Z := if ((- chrono_max <=? z) && (z <=? chrono_max))%Z then ROk z else RPanic.
(** checked_mul of i64 *)
Definition i64_mul (a b : Z) : rs Z := if ((- 2 ^ 63 <=? a * b) && (a * b <? 2 ^ 63))%Z then ROk (a * b)%Z else RPanic.
(** 55-69 *)
Definition to_duration (d : decimal) (u : time_unit) : rs (option Z) :=
  match d_to_i64 d with
  | None => ROk None
  | Some x =>
      rbind
        match u with
        | UNanos => ROk x
        | UMicros => ROk (x * 1000)%Z
        | UMillis => chrono_new (x * 1000000)
        | USeconds => chrono_new (x * Z.of_N giga)
        | UMinutes => rbind (i64_mul x 60) (fun s => chrono_new (s * Z.of_N giga))
        | UHours => rbind (i64_mul x 3600) (fun s => chrono_new (s * Z.of_N giga))
        | UDays => rbind (i64_mul x 86400) (fun s => chrono_new (s * Z.of_N giga))
        end (fun z => ROk (Some z))
  end.

(** ** config_value.rs *)
Notation dcv := (cv decimal).
(** 264-266: unwrap() of an error panics *)
Definition as_duration (v : dcv) : rs (option Z) :=
  match v with CDur d u => rbind (to_duration d u) (fun o => match o with Some z => ROk (Some z) | None => RPanic end) | _ => ROk None end.
(** 268-270 *)
Definition as_std_duration (wraps : bool) (v : dcv) : rs (option N) :=
  match v with CDur d u => rbind (to_std_duration d_to_u64 wraps d u) (fun o => match o with Some z => ROk (Some z) | None => RPanic end) | _ => ROk None end.

(** ** config_number_value.rs 59-97: conversions to the integer types *)
Inductive itype := I8 | I16 | I32 | I64 | I128 | U8 | U16 | U32 | U64 | U128.
(** Decimal::to_i128 and to_u128: the truncated value, without a check since it has at most 96 bits; negative decimals are not unsigned. *)
Definition d_to_i128 (d : decimal) : option Z := Some (if d_neg d then - Z.of_N (d_trunc d) else Z.of_N (d_trunc d))%Z.
Definition d_to_u128 (d : decimal) : option Z := if d_neg d then None else Some (Z.of_N (d_trunc d)).
(** num_traits: the methods for smaller types that Decimal does not define go through to_i64 and to_u64 and a checked cast. *)
Definition cast_to (lo hi : Z) (o : option Z) : option Z :=
  match o with Some z => if ((lo <=? z) && (z <? hi))%Z then Some z else None | None => None end.
(** 59-97 *)
Definition num_to (t : itype) (d : decimal) : option Z :=
  match t with
  | I128 => d_to_i128 d
  | U128 => d_to_u128 d
  | I64 => d_to_i64 d
  | U64 => option_map Z.of_N (d_to_u64 d)
  | I32 => cast_to (- 2 ^ 31) (2 ^ 31) (d_to_i64 d)
  | U32 => cast_to 0 (2 ^ 32) (option_map Z.of_N (d_to_u64 d))
  | I16 => cast_to (- 2 ^ 15) (2 ^ 15) (d_to_i64 d)
  | U16 => cast_to 0 (2 ^ 16) (option_map Z.of_N (d_to_u64 d))
  | I8 => cast_to (- 2 ^ 7) (2 ^ 7) (d_to_i64 d)
  | U8 => cast_to 0 (2 ^ 8) (option_map Z.of_N (d_to_u64 d))
  end.
(** 14-24: From for the integer types (usize is u64); Decimal::from of the 128 bit types unwraps a check for 96 bits. *)
Definition num_from (t : itype) (z : Z) : rs decimal :=
  match t with
  | I128 | U128 => if (Z.abs z <? 2 ^ 96)%Z then ROk (Dec (z <? 0)%Z (Z.abs_N z) 0) else RPanic
  | _ => ROk (d_of_i64 z)
  end.
