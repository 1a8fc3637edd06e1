(** C144: the depth of calls of the HOCON parser is in proportion to the opening brackets of the text. *)
From Verif Require Import Base Core Comb Text Hocon Measure MeasureJson MeasureHocon MeasureHoconDeep.
Set Implicit Arguments.
Local Open Scope string_scope.
Local Open Scope nat_scope.
Local Open Scope list_scope.

(** C144.  The measured parser returns what HOCONParser::parse's grammar returns. *)
Theorem C144_measured : forall D (dec : list N -> option D) text, fst (mf_hocon_p dec text 0) = hocon_p dec text 0.
Proof. intros D dec text. apply ef_hocon. Qed.
(** No text, accepted or not, nests more closures than 19 for each of its opening brackets and 45 besides. *)
Theorem C144_height : forall D (dec : list N -> option D) text,
  hgt (snd (mf_hocon_p dec text 0)) <= 19 * length (filter (fun c => (c =? chr "{") || (c =? chr "["))%N text) + 45.
Proof. intros D dec text. apply hocon_height. Qed.
(** Nothing else does: a text of any number of entries without brackets nests no more than one entry. *)
Theorem C144_entries : forall D (dec : list N -> option D) n, hgt (snd (mf_hocon_p dec (List.concat (repeat (bs "a=1.5e3 x,") n)) 0)) <= 45.
Proof.
  intros D dec n. eapply Nat.le_trans; [apply hocon_height|]. replace (opening _) with 0; [lia|]. induction n as [|n IH]; [reflexivity|]. exact IH.
Qed.
(** The brackets cannot be traded away: a configuration whose arrays and objects contain one another k deep took a nesting of about 10 k at
    least. *)
Theorem C144_depth : forall D (dec : list N -> option D) text cs n, hocon_p dec text 0 = Success cs n ->
  Forall (fun c => 10 * nested c <= hgt (snd (mf_hocon_p dec text 0)) + 5) cs.
Proof.
  intros D dec text cs n E. apply hocon_deep in E. apply Forall_forall. intros c Hc.
  pose proof (proj1 (list_max_le (map (@nested D) cs) _) (le_n _)) as K. rewrite Forall_map, Forall_forall in K. apply K in Hc. unfold most in E. lia.
Qed.
(** Entries without brackets reach 45, each object around them adds 19, arrays and objects without a separator add less, and an unclosed text
    nests too. *)
Example C144_case :
  let decimal (s : list N) : option nat := Some (length s) in
  (map (fun s => hgt (snd (mf_hocon_p decimal (bs s) 0))) ["a=1.5e3 x"; "a={b=1.5e3 x}"; "a={b={c=1.5e3 x}}"; "a=[1]"; "a=[[1]]"; "a{b=1}"; "a{b{c=1}}"; "a=[[["]
   = [45; 64; 83; 54; 66; 52; 62; 77])
  /\ hocon_p decimal (bs "a{b{c=[1]}}") 0 = Success [CObj [(bs "a", CObj [(bs "b", CObj [(bs "c", CArr [CNum 1])])])]] 11
  /\ nested (CObj [(bs "a", CObj [(bs "b", CObj [(bs "c", CArr [CNum 1])])])]) = 4
  /\ hgt (snd (mf_hocon_p decimal (bs "a{b{c=[1]}}") 0)) = 74.
Proof. vm_compute. repeat split. Qed.
Print Assumptions C144_measured.
Print Assumptions C144_height.
Print Assumptions C144_entries.
Print Assumptions C144_depth.
