(** Independent specification of the cron notation: which texts denote which expressions, and which values a field
    contains. *)
From Verif Require Import Base Core Cron.
Set Implicit Arguments.
Local Open Scope string_scope.
Local Open Scope nat_scope.
Local Open Scope list_scope.

(** One or two decimal digits and their value. *)
Inductive dec_text : list N -> N -> Prop :=
| dec_one : forall d, (d <= 9)%N -> dec_text [48 + d]%N d
| dec_two : forall a b, (a <= 9)%N -> (b <= 9)%N -> dec_text [48 + a; 48 + b]%N (10 * a + b)%N.

(** A unit of a numeric field with values lo..hi. *)
Definition num_unit (lo hi : N) (s : list N) (e : cexpr) : Prop :=
  exists n, e = ValueExpr n /\ (lo <= n <= hi)%N /\ dec_text s n.
(** A unit of the weekday field. *)
Definition dow_unit (s : list N) (e : cexpr) : Prop :=
  (exists n, e = ValueExpr n /\ (1 <= n <= 7)%N /\ s = [48 + n]%N) \/
  (s = bs "SUN" /\ e = ValueExpr 1) \/ (s = bs "MON" /\ e = ValueExpr 2) \/ (s = bs "TUE" /\ e = ValueExpr 3) \/
  (s = bs "WED" /\ e = ValueExpr 4) \/ (s = bs "THU" /\ e = ValueExpr 5) \/ (s = bs "FRI" /\ e = ValueExpr 6) \/
  (s = bs "SAT" /\ e = ValueExpr 7) \/ (s = bs "L" /\ e = LastValueExpr).

Section Field.
Variable U : list N -> cexpr -> Prop.
(** item := unit | unit-unit | unit-unit/unit *)
Inductive item_text : list N -> cexpr -> Prop :=
| it_unit : forall s e, U s e -> item_text s e
| it_range : forall s a t b, U s a -> U t b -> item_text (s ++ bs "-" ++ t) (RangeExpr a b NoOp)
| it_step : forall s a t b u c, U s a -> U t b -> U u c ->
    item_text (s ++ bs "-" ++ t ++ bs "/" ++ u) (RangeExpr a b c).
(** (, item)* [,] *)
Inductive more_text : list N -> list cexpr -> Prop :=
| mt_nil : more_text [] []
| mt_comma : more_text (bs ",") []
| mt_cons : forall s e t es, item_text s e -> more_text t es -> more_text (bs "," ++ s ++ t) (e :: es).
(** field := items | */unit | * *)
Inductive field_text : list N -> cexpr -> Prop :=
| ft_one : forall s e t, item_text s e -> more_text t [] -> field_text (s ++ t) e
| ft_list : forall s e t e' es, item_text s e -> more_text t (e' :: es) ->
    field_text (s ++ t) (ListExpr (e :: e' :: es))
| ft_per : forall s e, U s e -> field_text (bs "*/" ++ s) (PerExpr AnyValueExpr e)
| ft_any : field_text (bs "*") AnyValueExpr.
End Field.

Inductive cron_text : list N -> cexpr -> Prop :=
| ct : forall s1 e1 s2 e2 s3 e3 s4 e4 s5 e5,
    field_text (num_unit 0 59) s1 e1 -> field_text (num_unit 0 23) s2 e2 -> field_text (num_unit 1 31) s3 e3 ->
    field_text (num_unit 1 12) s4 e4 -> field_text dow_unit s5 e5 ->
    cron_text (s1 ++ bs " " ++ s2 ++ bs " " ++ s3 ++ bs " " ++ s4 ++ bs " " ++ s5) (Cron e1 e2 e3 e4 e5).

(** All numbers of an expression. *)
Fixpoint numbers (e : cexpr) : list N :=
  match e with
  | NoOp | LastValueExpr | AnyValueExpr => []
  | ValueExpr n => [n]
  | PerExpr a b => numbers a ++ numbers b
  | RangeExpr a b c => numbers a ++ numbers b ++ numbers c
  | ListExpr l => flat_map numbers l
  | Cron a b c d e => numbers a ++ numbers b ++ numbers c ++ numbers d ++ numbers e
  end.
Definition within (lo hi : N) (e : cexpr) : Prop := Forall (fun n => lo <= n <= hi)%N (numbers e).

(** The value of a unit in a field with maximum [max]. *)
Inductive unit_value (max : N) : cexpr -> N -> Prop :=
| uv_value : forall n, unit_value max (ValueExpr n) n
| uv_last : unit_value max LastValueExpr max.
(** [field_has max e x]: the set of values denoted by field [e] contains [x]. *)
Inductive field_has (max : N) : cexpr -> N -> Prop :=
| fh_unit : forall e x, unit_value max e x -> field_has max e x
| fh_any : forall x, field_has max AnyValueExpr x
| fh_list : forall l e x, In e l -> field_has max e x -> field_has max (ListExpr l) x
| fh_range : forall a b lo hi x, unit_value max a lo -> unit_value max b hi -> (lo <= x <= hi)%N ->
    field_has max (RangeExpr a b NoOp) x
| fh_step : forall a b c lo hi s k, unit_value max a lo -> unit_value max b hi -> unit_value max c s ->
    (lo + k * s <= hi)%N -> field_has max (RangeExpr a b c) (lo + k * s)%N
| fh_per : forall c s k, unit_value max c s -> (k * s <= max)%N -> field_has max (PerExpr AnyValueExpr c) (k * s)%N.

(** The shapes the grammar produces, over any kind of unit. *)
Inductive shape_unit : cexpr -> Prop :=
| su_value : forall n, shape_unit (ValueExpr n)
| su_last : shape_unit LastValueExpr.
Inductive shape_item : cexpr -> Prop :=
| si_unit : forall e, shape_unit e -> shape_item e
| si_range : forall a b, shape_unit a -> shape_unit b -> shape_item (RangeExpr a b NoOp)
| si_step : forall a b c, shape_unit a -> shape_unit b -> shape_unit c -> shape_item (RangeExpr a b c).
Inductive shape_field : cexpr -> Prop :=
| sf_item : forall e, shape_item e -> shape_field e
| sf_list : forall l, Forall shape_item l -> shape_field (ListExpr l)
| sf_per : forall e, shape_unit e -> shape_field (PerExpr AnyValueExpr e)
| sf_any : shape_field AnyValueExpr.

(** Is there a step (after '/') equal to [s] somewhere? *)
Inductive has_step (s : cexpr) : cexpr -> Prop :=
| hs_per : forall d, has_step s (PerExpr d s)
| hs_range : forall a b, has_step s (RangeExpr a b s)
| hs_list : forall l e, In e l -> has_step s e -> has_step s (ListExpr l).
(** Is L used as an end point or as a step (and not as a field value of its own)? *)
Inductive inner_last : cexpr -> Prop :=
| il_from : forall b c, inner_last (RangeExpr LastValueExpr b c)
| il_to : forall a c, inner_last (RangeExpr a LastValueExpr c)
| il_step : forall a b, inner_last (RangeExpr a b LastValueExpr)
| il_per : forall a, inner_last (PerExpr a LastValueExpr)
| il_list : forall l e, In e l -> inner_last e -> inner_last (ListExpr l).
