(** C145: how long the HOCON parser takes at most. *)
From Verif Require Import Base Core Comb Runs Text Hocon HoconComplete Measure HoconSlow MeasureHocon MeasureHoconLow MeasureHoconCount.
Set Implicit Arguments.
Local Open Scope string_scope.
Local Open Scope nat_scope.
Local Open Scope list_scope.

(** C145.  No text, accepted or not, takes more calls than a cube of its length, doubled for each of its characters that open an object, an array
    or a comment. *)
Theorem C145_calls : forall D (dec : list N -> option D) text,
  cnt (snd (mf_hocon_p dec text 0)) <= 48 * 704 * S (length text) ^ 3 * 2 ^ length (filter (fun c => (c =? chr "{") || (c =? chr "[") || (c =? chr "#") || (c =? chr "/"))%N text).
Proof. intros D dec text. apply MeasureHoconCount.hocon_calls. Qed.
(** Only those characters make a document slow: with a limit on their number the time is polynomial in the length. *)
Theorem C145_polynomial : forall D (dec : list N -> option D) k text,
  length (filter (fun c => (c =? chr "{") || (c =? chr "[") || (c =? chr "#") || (c =? chr "/"))%N text) <= k ->
  cnt (snd (mf_hocon_p dec text 0)) <= 48 * 704 * 2 ^ k * S (length text) ^ 3.
Proof.
  intros D dec k text H. etransitivity; [apply MeasureHoconCount.hocon_calls|]. apply (Nat.pow_le_mono_r 2) in H; [|lia]. change (length (filter _ text)) with (marks text) in H.
  rewrite <- !Nat.mul_assoc. apply Nat.mul_le_mono_l, Nat.mul_le_mono_l. rewrite Nat.mul_comm. now apply Nat.mul_le_mono_r.
Qed.
(** Properties without brackets, however many. *)
Theorem C145_entries : forall D (dec : list N -> option D) n,
  cnt (snd (mf_hocon_p dec (List.concat (repeat (bs "a=1.5e3 x,") n)) 0)) <= 48 * 704 * S (10 * n) ^ 3.
Proof.
  intros D dec n. assert (L : length (List.concat (repeat (bs "a=1.5e3 x,") n)) = 10 * n) by (induction n as [|n IH]; [reflexivity|]; cbn [repeat List.concat]; rewrite app_length, IH; cbn; lia).
  rewrite <- L. etransitivity; [apply C145_polynomial with (k := 0)|].
  - clear L. induction n as [|n IH]; [apply le_n|]. exact IH.
  - rewrite Nat.pow_0_r, Nat.mul_1_r. apply le_n.
Qed.
(** The exponent is right: k lines a={ contain k opening brackets, are accepted, and take calls that double with k, in this measure as in the
    coarser one of C140. *)
Theorem C145_doubling : forall D (dec : list N -> option D) k, let text := List.concat (repeat (bs "a={" ++ [10%N]) (S k)) in
  hocon_p dec text 0 = Success [CObj [(bs "a", CStr (bs "{"))]] (length text)
  /\ length (filter (fun c => (c =? chr "{") || (c =? chr "[") || (c =? chr "#") || (c =? chr "/"))%N text) = S k
  /\ 2 ^ k <= cnt (snd (mf_hocon_p dec text 0)) <= 48 * 704 * S (4 * S k) ^ 3 * 2 ^ S k.
Proof.
  intros D dec k text. assert (T : forall d, List.concat (repeat (bs "a={" ++ [10%N]) d) = opens d) by (induction d as [|d IH]; [reflexivity|]; cbn [repeat List.concat opens]; now rewrite IH).
  assert (M : forall d, marks (opens d) = d) by (induction d as [|d IH]; [reflexivity|]; cbn [opens]; rewrite marks_app, IH; reflexivity).
  unfold text. rewrite T. split; [apply hocon_reads|]. split; [apply M|]. split.
  - etransitivity; [apply HoconSlow.hocon_calls|]. apply (fi_hocon dec (opens (S k)) 0).
  - rewrite <- opens_length. pose proof (MeasureHoconCount.hocon_calls dec (opens (S k))) as H. now rewrite M in H.
Qed.
Theorem C145_coarser : forall D (dec : list N -> option D) text, cnt (snd (mh_hocon dec text 0)) <= cnt (snd (mf_hocon_p dec text 0)).
Proof. intros D dec text. apply (fi_hocon dec text 0). Qed.
(** Documents left open double with every line, closed ones do not. *)
Example C145_case :
  let decimal (s : list N) : option nat := Some (length s) in
  let calls s := cnt (snd (mf_hocon_p decimal s 0)) in
  map (fun d => N.of_nat (calls (List.concat (repeat (bs "a={" ++ [10%N]) d)))) [1; 2; 3; 4; 5] = [681; 1813; 4103; 8709; 17947]%N
  /\ map (fun d => calls (List.concat (repeat (bs "a={") d) ++ bs "a=1" ++ repeat (chr "}") d)) [1; 2; 3; 4; 5] = [1057; 1498; 1942; 2389; 2839]
  /\ map (fun d => calls (bs "a={" ++ List.concat (repeat (bs "a=#" ++ [10%N]) d))) [1; 2; 3; 4; 5] = [1091; 1535; 1953; 2397; 2815].
Proof. vm_compute. repeat split. Qed.
Print Assumptions C145_calls.
Print Assumptions C145_polynomial.
Print Assumptions C145_entries.
Print Assumptions C145_doubling.
Print Assumptions C145_coarser.
