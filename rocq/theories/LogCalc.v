(** What the calculator (parser/examples/calculator.rs) writes to the log: the lines of regex (elements_parsers_impl.rs 92). *)
From Verif Require Import Base Core Comb Text Calc Log LogToys.
Set Implicit Arguments.
Local Open Scope string_scope.
Local Open Scope nat_scope.
Local Open Scope list_scope.

Section Calc.
Variable D : Type.
Variable nd : N -> bool.
Variable dec : list N -> D + unit.
(** The Debug text of characters. *)
Variable on : list N -> list N.

(** calculator.rs 142-147. *)
Definition wc_value : wparser (cexpr D) := w_map (w_one (fun p => p_map_res p dec) (w_regex on (find_decimal nd))) (@CValue D).
Section Recursion.
(** lazy(primary), lazy(expr) *)
Variables primary expr : wparser (cexpr D).
(** calculator.rs 131-140. *)
Definition wc_primary0 : wparser (cexpr D) :=
  w_or
    (w_map
      (w_surround (w_leaf (p_and (p_and c_space (p_elm_ref (chr "("))) c_space)) expr
        (w_leaf (p_and (p_and c_space (p_elm_ref (chr ")"))) c_space)))
      (@CParen D))
    wc_value.
(** calculator.rs 120-129. *)
Definition wc_unary : wparser (cexpr D) :=
  w_map_panic (w_and (w_leaf (p_or (p_elm_ref (chr "+")) (p_elm_ref (chr "-")))) primary)
    (fun '(c, e) => if (c =? chr "-")%N then Some (CMinus e) else if (c =? chr "+")%N then Some (CPlus e) else None).
Definition wc_primary_step : wparser (cexpr D) := w_or wc_unary wc_primary0.
End Recursion.
(** calculator.rs 96-106. *)
Definition wc_multitive (primary : wparser (cexpr D)) : wparser (cexpr D) := w_chain_left1 primary (w_leaf (@mul_op D)).
(** calculator.rs 108-118, 42-44. *)
Definition wc_additive (primary : wparser (cexpr D)) : wparser (cexpr D) := w_chain_left1 (wc_multitive primary) (w_leaf (@add_op D)).
(** calculator.rs 121 and 134: the recursion through lazy, as in Calc.v. *)
Fixpoint wc_primary_fuel (fuel : nat) : wparser (cexpr D) :=
  match fuel with
  | 0 => w_leaf p_diverge
  | S fuel' => wc_primary_step (wc_primary_fuel fuel') (wc_additive (wc_primary_fuel fuel'))
  end.
(** calculator.rs 162-164. *)
Definition wc_calculator : wparser (cexpr D) := fun inp off => w_skip_right (wc_additive (wc_primary_fuel (S (length inp)))) (w_leaf p_end) inp off.

(** ** The outcomes *)
Lemma e_value : werases wc_value (c_value nd dec).
Proof. apply we_map, we_map_res, we_regex. Qed.
Lemma e_additive : forall g p, werases g p -> werases (wc_additive g) (additive p).
Proof. intros g p H. apply we_chain; [|apply we_leaf]. apply we_chain; [exact H|apply we_leaf]. Qed.
Lemma e_primary_fuel : forall n, werases (wc_primary_fuel n) (primary_fuel nd dec n).
Proof.
  induction n as [|n IH]; [apply we_leaf|]. cbn [wc_primary_fuel primary_fuel]. unfold wc_primary_step, primary_step, wc_unary, unary, wc_primary0, primary0, p_lazy. apply we_or; [|apply we_or; [|apply e_value]].
  - apply we_map_panic, we_and; [apply we_leaf|exact IH].
  - apply we_map, we_surround; [apply we_leaf|now apply e_additive|apply we_leaf].
Qed.
Lemma e_calculator : werases wc_calculator (calculator nd dec).
Proof. intros inp off. exact (we_skip_right (e_additive (e_primary_fuel (S (length inp)))) (we_leaf p_end) inp off). Qed.
End Calc.
