(** C90: json_byte.rs and json_char.rs read the same documents. *)
From Verif Require Import PropsF.
From Verif Require Import Base Core Comb Closure Text Json JsonSpec JsonFacts JsonAgree.
Set Implicit Arguments.
Local Open Scope string_scope.
Local Open Scope nat_scope.
Local Open Scope list_scope.

(** ** C90 *)
(** On a text of Unicode scalar values and on its UTF-8 bytes the two parsers give the same verdict, and on success the same
    value with its strings and keys in UTF-8. *)
Theorem C90_same_verdict : forall F (f64_parse : list N -> F + unit) t, scalars t ->
  match parse (json_p f64_parse false) t with
  | Success v _ => parse (json_p f64_parse true) (enc t) = Success (enc_json v) (length (enc t))
  | Failure _ _ => exists e c, parse (json_p f64_parse true) (enc t) = Failure e c
  | Panic | Diverge => False
  end.
Proof.
  intros F f t Ht. destruct (parse (json_p f false) t) as [v n|e c| |] eqn:E.
  - apply C48_accepts_exactly_partial in E. destruct E as [_ E]. apply C48_accepts_exactly_partial. split; [reflexivity|]. now apply doc_up.
  - destruct (C48_always_returns f true (enc t)) as (K1 & K2 & _). destruct (parse (json_p f true) (enc t)) as [v n|e' c'| |] eqn:E'; try congruence; [exfalso|now exists e', c'].
    apply C48_accepts_exactly_partial in E'. destruct E' as [_ E']. apply doc_down in E'. destruct E' as (v' & t' & Hd & _ & Et & Ht').
    apply enc_inj in Et; [|assumption|assumption]. subst t'. assert (K : parse (json_p f false) t = Success v' (length t)) by now apply C48_accepts_exactly_partial. congruence.
  - now apply (C48_always_returns f false t) in E.
  - now apply (C48_always_returns f false t) in E.
Qed.
(** Every byte text that is accepted is the UTF-8 form of a text the character parser accepts, with the same value. *)
Theorem C90_bytes_are_text : forall F (f64_parse : list N -> F + unit) s v n, parse (json_p f64_parse true) s = Success v n ->
  exists t v', scalars t /\ s = enc t /\ v = enc_json v' /\ parse (json_p f64_parse false) t = Success v' (length t).
Proof.
  intros F f s v n H. apply C48_accepts_exactly_partial in H. destruct H as [_ H]. apply doc_down in H. destruct H as (v' & t & Hd & -> & -> & Ht).
  exists t, v'. repeat split; try assumption. now apply C48_accepts_exactly_partial.
Qed.
(** So bytes that are not UTF-8 are rejected wherever in the document they stand, not only inside strings. *)
Theorem C90_invalid_rejected : forall F (f64_parse : list N -> F + unit) s, utf8_valid s = false -> exists e c, parse (json_p f64_parse true) s = Failure e c.
Proof.
  intros F f s H. destruct (C48_always_returns f true s) as (K1 & K2 & _). destruct (parse (json_p f true) s) as [v n|e c| |] eqn:E; try congruence; [exfalso|now exists e, c].
  apply C90_bytes_are_text in E. destruct E as (t & v' & Ht & -> & _). rewrite (enc_valid Ht) in H. discriminate.
Qed.
Example C90_example :
  let t := (bs "[" ++ [34; 233; 8364; 128512; 34]%N ++ bs "]")%list in
  scalars t /\ enc t = [91; 34; 195; 169; 226; 130; 172; 240; 159; 152; 128; 34; 93]%N /\
  parse (json_p f64_toy false) t = Success (JArray [JStr _ [233; 8364; 128512]%N]) 7 /\
  parse (json_p f64_toy true) (enc t) = Success (JArray [JStr _ [195; 169; 226; 130; 172; 240; 159; 152; 128]%N]) 13 /\
  utf8_valid [34; 195; 34]%N = false.
Proof. split; [|vm_compute; auto]. repeat (apply Forall_cons; [split; [vm_compute; reflexivity|vm_compute; intuition discriminate]|]). constructor. Qed.
Print Assumptions C90_same_verdict.
Print Assumptions C90_bytes_are_text.
Print Assumptions C90_invalid_rejected.
