(** C140: how long the hocon parser takes. *)
From Verif Require Import PropsAT.
From Verif Require Import Base Core Comb Runs Text Hocon HoconComplete Measure HoconSlow.
From Coq Require Import Lia.
Set Implicit Arguments.
Local Open Scope string_scope.
Local Open Scope nat_scope.
Local Open Scope list_scope.

(** The wanted property, full statement: there are [c] and [e] with
    forall text, cnt (snd (mh_hocon dec text 0)) <= c * length text ^ e
    (the time hocon() takes is bounded by a polynomial in the length of the text).  It is false, even of documents that are accepted: on [opens d],
    which is the line a={ again and again, the closures called double with every line.  The parsers with their calls ([mh_hocon]) return what those
    of Hocon.v return. *)
Theorem C140_measured : forall D (dec : list N -> option D) text, fst (mh_hocon dec text 0) = hocon_p dec text 0.
Proof. intros D dec text. apply er_hocon. Qed.
Theorem C140_doubling : forall D (dec : list N -> option D) d,
  length (opens (S d)) = 4 * S d /\ hocon_p dec (opens (S d)) 0 = Success [CObj [(bs "a", CStr (bs "{"))]] (length (opens (S d))) /\ 2 ^ d <= cnt (snd (mh_hocon dec (opens (S d)) 0)).
Proof. intros D dec d. split; [apply opens_length|]. split; [apply hocon_reads|apply hocon_calls]. Qed.
Theorem C140_polynomial_refuted : forall D (dec : list N -> option D) c e,
  exists text v, hocon_p dec text 0 = Success [v] (length text) /\ c * length text ^ e < cnt (snd (mh_hocon dec text 0)).
Proof.
  intros D dec c e. destruct (outgrows c e) as [d L]. exists (opens (S d)), (CObj [(bs "a", CStr (bs "{"))]). split; [apply hocon_reads|].
  eapply Nat.le_lt_trans; [|eapply Nat.lt_le_trans; [exact L|apply hocon_calls]]. apply Nat.mul_le_mono_l, Nat.pow_le_mono_l. rewrite opens_length. lia.
Qed.
(** The same documents, one closing brace short: an object that is not closed is tried as an object, read as a string, and the lines behind it are
    read again. *)
Example C140_texts : opens 2 = bs "a={" ++ [10%N] ++ bs "a={" ++ [10%N].
Proof. reflexivity. Qed.
Example C140_value : hocon_p (fun _ => Some 0%N) (opens 2) 0 = Success [CObj [(bs "a", CStr (bs "{"))]] 8.
Proof. vm_compute. reflexivity. Qed.
Example C140_calls : map (fun d => cnt (snd (mh_hocon (fun _ => Some 0%N) (opens d) 0))) [1; 2; 3; 4; 5; 6] = [45; 115; 257; 543; 1117; 2267].
Proof. vm_compute. reflexivity. Qed.
Print Assumptions C140_measured.
Print Assumptions C140_doubling.
Print Assumptions C140_polynomial_refuted.
