(** C147: the depth of calls of the toys parsers is in proportion to the opening brackets and operators of the text. *)
From Verif Require Import Base Core Comb Text Json Calc CalcFacts Toys ToysParse Measure MeasureJson MeasureMarks MeasureToys MeasureToysDeep MeasureToysLow.
From Coq Require Import Lia.
Set Implicit Arguments.
Local Open Scope string_scope.
Local Open Scope nat_scope.
Local Open Scope list_scope.

(** The opening brackets and the characters of operators. *)
Definition marks (text : list N) : nat := length (filter (fun c => existsb (N.eqb c) (bs "([{+-*/%&|<>!=")) text).
(** C147.  The measured parsers return what the parsers of toys return. *)
Theorem C147_measured : forall nd text, fst (mt_lines nd text 0) = lines nd text 0 /\ fst (mt_program nd text 0) = program nd text 0.
Proof. intros nd text. split; [apply et_lines|apply et_program]. Qed.
(** No text, accepted or not, nests more closures than 33 for each of those characters and 57 (lines()) or 42 (program()) besides. *)
Theorem C147_lines_height : forall nd text, hgt (snd (mt_lines nd text 0)) <= 33 * marks text + 57.
Proof. exact lines_height. Qed.
Theorem C147_program_height : forall nd text, hgt (snd (mt_program nd text 0)) <= 33 * marks text + 42.
Proof. exact program_height. Qed.
(** Lines without brackets and operators need a stack that does not depend on their number or length. *)
Theorem C147_plain : forall nd n, hgt (snd (mt_lines nd (List.concat (repeat (bs "alpha; 12 ; true; ") n)) 0)) <= 57.
Proof. intros nd n. eapply Nat.le_trans; [apply lines_height|]. replace (ahead _ _) with 0; [lia|]. induction n as [|n IH]; [reflexivity|]. exact IH. Qed.
(** The bound is exact: d calls inside one another around a string with an escape. *)
Fixpoint calls (d : nat) : list N := match d with 0 => 34%N :: 92%N :: bs "n" ++ [34%N] | S d' => bs "g(" ++ calls d' ++ bs ")" end.
Lemma calls_opened : forall d l, exists l', calls d ++ l = opened d (34%N :: 92%N :: l').
Proof.
  induction d as [|d IH]; intros l; [eexists; reflexivity|]. destruct (IH (bs ")" ++ l)) as [l' E]. exists l'. cbn [calls opened]. rewrite <- !app_assoc, E. reflexivity.
Qed.
Lemma calls_marks : forall d l, marks (calls d ++ l) = d + marks l.
Proof.
  induction d as [|d IH]; intros l; [reflexivity|]. cbn [calls]. rewrite <- !app_assoc. change (marks (bs "g(" ++ calls d ++ bs ")" ++ l)) with (S (marks (calls d ++ bs ")" ++ l))). rewrite IH. reflexivity.
Qed.
Theorem C147_exact : forall nd d, (forall x, (x < 128)%N -> (nd x = true <-> digit x)) -> marks (calls (S d) ++ bs ";") = S d /\ hgt (snd (mt_lines nd (calls (S d) ++ bs ";") 0)) = 33 * S d + 57.
Proof.
  intros nd d Hnd. split; [rewrite calls_marks; cbn; lia|]. apply Nat.le_antisymm.
  - eapply Nat.le_trans; [apply C147_lines_height|]. rewrite calls_marks. change (marks (bs ";")) with 0. lia.
  - destruct (calls_opened (S d) (bs ";")) as [l E]. rewrite E. exact (@lo_lines nd Hnd d l).
Qed.
(** Accepted and rejected texts, with the bound: calls reach it, parentheses, blocks and operators add less. *)
Example C147_case :
  let dg c := ((48 <=? c) && (c <=? 57))%N in
  map (fun s => (hgt (snd (mt_lines dg (bs s) 0)), marks (bs s))) ["1;"; "f();"; "f(f());"; "f(f(f("; "((1));"; "1+1+1+1;"; "if(a)b;"; "{{}}"]
    = [(48, 0); (81, 1); (114, 2); (147, 3); (102, 2); (52, 3); (67, 1); (76, 2)]
  /\ map (fun s => (hgt (snd (mt_program dg (bs s) 0)), marks (bs s))) ["fn f(){}"; "fn f(){g(1);}"; "global x = f(1);"] = [(66, 2); (97, 3); (79, 2)]
  /\ hgt (snd (mt_lines dg (calls 2 ++ bs ";") 0)) = 123
  /\ exists e, lines dg (calls 2 ++ bs ";") 0 = Success [ECall (bs "g") [ECall (bs "g") [EString e]]] 11.
Proof. vm_compute. repeat split. eexists. reflexivity. Qed.
Print Assumptions C147_measured.
Print Assumptions C147_lines_height.
Print Assumptions C147_program_height.
Print Assumptions C147_plain.
Print Assumptions C147_exact.
