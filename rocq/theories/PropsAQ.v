(** C136: the number of calls of the calculator. *)
From Verif Require Import Base Core Comb Calc CalcSpec Measure MeasureCalc MeasureCalcCount PropsI PropsAO.
Set Implicit Arguments.
Local Open Scope string_scope.
Local Open Scope nat_scope.
Local Open Scope list_scope.

(** ** C136 *)
(** Every text, expression or not, is read with a number of calls in proportion to its length. *)
Theorem C136_calls : forall D nd (dec : list N -> D + unit) inp, ascii_class nd -> ascii_only dec ->
  fst (mc_calculator nd dec inp 0) = parse (calculator nd dec) inp /\ cnt (snd (mc_calculator nd dec inp 0)) <= 204 * length inp + 140.
Proof. intros D nd dec inp H1 H2. split; [apply er_calculator|now apply calculator_calls]. Qed.
Print Assumptions C136_calls.
(** The library: a chain of operators between white space looks at the white space behind it once more than its operands do, whatever the operands and operators are. *)
Theorem C136_chain : forall A n a b c K (g : mparser A) h, linx n a b c g -> spaced K h -> c + 4 + K + b <= a -> linx n a (b + K + 4) (c + 2) (m_chain_left1 g h).
Proof. intros A n a b c K g h. apply chain_count. Qed.
Print Assumptions C136_chain.
Example C136_chain_example : linx 5 200 91 0 (mc_primary nd0 dec0 5) /\ spaced 14 (@mc_add_op N).
Proof. split; [apply primary_count; [exact nd0_ok|exact dec0_ok|apply le_n]|apply sp_add]. Qed.
Example C136_example :
  cnt (snd (mc_calculator nd0 dec0 (bs "1") 0)) = 52 /\ cnt (snd (mc_calculator nd0 dec0 (bs "((((1") 0)) = 178 /\
  cnt (snd (mc_calculator nd0 dec0 (bs "((((((((1") 0)) = 298 /\ cnt (snd (mc_calculator nd0 dec0 (bs "1 + 2 * (3 - 4)") 0)) = 271.
Proof. vm_compute. repeat split. Qed.
