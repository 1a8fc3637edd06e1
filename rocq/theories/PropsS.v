(** The JSON readers of the benchmark: C104, C105. *)
From Verif Require Import PropsF.
From Verif Require Import Base Core Comb Closure RepFacts LitFacts Hoare Runs Text Agree Json JsonSpec JsonFacts JsonAgree Bench BenchFacts.
Set Implicit Arguments.
Local Open Scope string_scope.
Local Open Scope nat_scope.
Local Open Scope list_scope.

(** The grammar of BenchFacts.v with the strings of JsonSpec.v is the grammar of JsonSpec.v. *)
Lemma bval_jval : forall F (f : list N -> F + unit) utf8,
  (forall v s, bval (g_string false utf8) (num_text f) v s -> jval f false utf8 v s) /\
  (forall vs s, belems (g_string false utf8) (num_text f) vs s -> jelems f false utf8 vs s) /\
  (forall ms s, bmembers (g_string false utf8) (num_text f) ms s -> jmembers f false utf8 ms s).
Proof.
  intros F f utf8. apply (@bval_ind3 F _ _ (fun v s _ => jval f false utf8 v s) (fun v s _ => jelems f false utf8 v s) (fun v s _ => jmembers f false utf8 v s));
    intros; try (now constructor). match goal with H : num_text _ _ _ |- _ => destruct H end. now constructor.
Qed.
Lemma jval_bval : forall F (f : list N -> F + unit) utf8,
  (forall v s, jval f false utf8 v s -> bval (g_string false utf8) (num_text f) v s) /\
  (forall vs s, jelems f false utf8 vs s -> belems (g_string false utf8) (num_text f) vs s) /\
  (forall ms s, jmembers f false utf8 ms s -> bmembers (g_string false utf8) (num_text f) ms s).
Proof.
  intros F f utf8. apply (@jval_ind3 F f false utf8 (fun v s _ => bval (g_string false utf8) (num_text f) v s)
    (fun v s _ => belems (g_string false utf8) (num_text f) v s) (fun v s _ => bmembers (g_string false utf8) (num_text f) v s));
    intros; try (now constructor).
Qed.
Lemma bdoc_jdoc : forall F (f : list N -> F + unit) utf8 v s, bdoc (g_string false utf8) (num_text f) v s <-> jdoc f false utf8 v s.
Proof.
  intros F f utf8 v s. split; intros (a & t & b & E & Ha & Hv & Hb); exists a, t, b; repeat split; try assumption.
  - now apply (bval_jval f utf8).
  - now apply (jval_bval f utf8).
Qed.
(** Strings can be replaced by other strings if this is right for those that occur in the text. *)
Lemma bval_local : forall F (GS GS' : list N -> list N -> Prop) (GN : F -> list N -> Prop),
  let ok l0 s r0 := forall v' s' l r, GS v' s' -> l0 ++ s ++ r0 = l ++ s' ++ r -> GS' v' s' in
  (forall v s, bval GS GN v s -> forall l0 r0, ok l0 s r0 -> bval GS' GN v s) /\
  (forall vs s, belems GS GN vs s -> forall l0 r0, ok l0 s r0 -> belems GS' GN vs s) /\
  (forall ms s, bmembers GS GN ms s -> forall l0 r0, ok l0 s r0 -> bmembers GS' GN ms s).
Proof.
  intros F GS GS' GN ok.
  assert (In1 : forall l0 a s b r0, ok l0 (a ++ s ++ b) r0 -> ok (l0 ++ a) s (b ++ r0)).
  { intros l0 a s b r0 H v' s' l r K E. apply (H v' s' l r K). rewrite <- E, <- !app_assoc. reflexivity. }
  apply (@bval_ind3 F GS GN (fun v s _ => forall l0 r0, ok l0 s r0 -> bval GS' GN v s)
    (fun v s _ => forall l0 r0, ok l0 s r0 -> belems GS' GN v s) (fun v s _ => forall l0 r0, ok l0 s r0 -> bmembers GS' GN v s)).
  - intros. constructor.
  - intros. constructor.
  - intros. constructor.
  - intros. now constructor.
  - intros v s H l0 r0 K. constructor. eapply K; [exact H|reflexivity].
  - intros. now constructor.
  - intros vs s t _ IH Ht l0 r0 K. constructor; [|exact Ht]. eapply (IH _ _). apply In1 in K. exact K.
  - intros. now constructor.
  - intros ms s t _ IH Ht l0 r0 K. constructor; [|exact Ht]. eapply (IH _ _). apply In1 in K. exact K.
  - intros v a s b Ha _ IH Hb l0 r0 K. constructor; [exact Ha| |exact Hb]. eapply (IH _ _). apply In1 in K. exact K.
  - intros v a s b vs t Ha _ IH Hb _ IHt l0 r0 K. constructor; [exact Ha| |exact Hb|].
    + eapply (IH _ _). apply In1 in K. exact K.
    + apply (IHt (l0 ++ a ++ s ++ b ++ bs ",") r0). intros v' s' l r H E. apply (K v' s' l r H). rewrite <- E, <- !app_assoc. reflexivity.
  - intros k v a sk b c s d Ha Hk Hb Hc _ IH Hd l0 r0 K. constructor; try assumption.
    + apply (K k sk (l0 ++ a) (b ++ bs ":" ++ c ++ s ++ d ++ r0) Hk). now rewrite <- !app_assoc.
    + apply (IH (l0 ++ a ++ sk ++ b ++ bs ":" ++ c) (d ++ r0)). intros v' s' l r H E. apply (K v' s' l r H). rewrite <- E, <- !app_assoc. reflexivity.
  - intros k v a sk b c s d ms t Ha Hk Hb Hc _ IH Hd _ IHt l0 r0 K. constructor; try assumption.
    + apply (K k sk (l0 ++ a) (b ++ bs ":" ++ c ++ s ++ d ++ bs "," ++ t ++ r0) Hk). now rewrite <- !app_assoc.
    + apply (IH (l0 ++ a ++ sk ++ b ++ bs ":" ++ c) (d ++ bs "," ++ t ++ r0)). intros v' s' l r H E. apply (K v' s' l r H). rewrite <- E, <- !app_assoc. reflexivity.
    + apply (IHt (l0 ++ a ++ sk ++ b ++ bs ":" ++ c ++ s ++ d ++ bs ",") r0). intros v' s' l r H E. apply (K v' s' l r H). rewrite <- E, <- !app_assoc. reflexivity.
Qed.

(** ** C104: the char reader *)
Lemma char_bench : forall F (f : list N -> F + unit) lossy inp, match bench_p f lossy false inp 0 with
  | Success v n => n = length inp /\ jdoc f false false v inp
  | Failure _ _ => True
  | Panic | Diverge => False
  end.
Proof.
  intros F f lossy inp.
  assert (H : match bench_p f lossy false inp 0 with
    | Success v n => n = length inp /\ bdoc (g_string false false) (num_text f) v inp | Failure _ _ => True | _ => False end).
  { eapply h_bench with (GS := g_string false false) (GN := num_text f).
    - apply (fun v s => @string_ne false false v s).
    - intros x s K. apply number_hd with (1 := proj1 K).
    - apply h_string.
    - apply h_number.
    - intros. now apply a_string.
    - intros. now apply r_string.
    - intros x s rest [K1 K2] Hr. now apply a_number.
    - intros. now apply r_number. }
  destruct (bench_p f lossy false inp 0); try exact H. destruct H as [H1 H2]. split; [exact H1|]. now apply bdoc_jdoc.
Qed.
(** It accepts exactly the documents of the grammar of C48, with the value they spell, and always returns. *)
Theorem C104_char_exact : forall F (f64_parse : list N -> F + unit) lossy inp v n,
  parse (bench_p f64_parse lossy false) inp = Success v n <-> n = length inp /\ jdoc f64_parse false false v inp.
Proof.
  intros F f lossy inp v n. unfold parse. split.
  - intros E. pose proof (char_bench f lossy inp) as H. now rewrite E in H.
  - intros [-> H]. apply bdoc_jdoc in H. eapply bench_complete with (GS := g_string false false) (GN := num_text f).
    + apply (fun v s => @string_ne false false v s).
    + intros x s K. apply number_hd with (1 := proj1 K).
    + apply h_string.
    + apply h_number.
    + intros. now apply a_string.
    + intros. now apply r_string.
    + intros x s rest [K1 K2] Hr. now apply a_number.
    + intros. now apply r_number.
    + exact H.
Qed.
Theorem C104_always_returns : forall F (f64_parse : list N -> F + unit) lossy inp,
  parse (bench_p f64_parse lossy false) inp <> Panic /\ parse (bench_p f64_parse lossy false) inp <> Diverge.
Proof. intros F f lossy inp. unfold parse. pose proof (char_bench f lossy inp) as H. destruct (bench_p f lossy false inp 0); split; easy. Qed.
(** So it is the reader of examples/json_char.rs, whatever the order of the alternatives. *)
Theorem C104_same_as_example : forall F (f64_parse : list N -> F + unit) lossy inp v n,
  parse (bench_p f64_parse lossy false) inp = Success v n <-> parse (json_p f64_parse false) inp = Success v n.
Proof. intros F f lossy inp v n. now rewrite C104_char_exact, C48_accepts_exactly_partial. Qed.
(** The benchmarked function panics exactly on the other texts. *)
Theorem C104_main : forall F (f64_parse : list N -> F + unit) lossy text,
  bench_main f64_parse lossy false text = Some tt <-> exists v, jdoc f64_parse false false v text.
Proof.
  intros F f lossy text. unfold bench_main. split.
  - destruct (parse (bench_p f lossy false) text) as [v n| | |] eqn:E; try discriminate. apply C104_char_exact in E. exists v. apply E.
  - intros [v H]. assert (E : parse (bench_p f lossy false) text = Success v (length text)) by now apply C104_char_exact. now rewrite E.
Qed.
Example C104_example :
  parse (bench_p f64_toy (fun s => s) false) (bs " { ""a"" : [ 1 , true , null , ] , ""a"" : ""\u0041\n"" } ") =
    Success (JObject [(bs "a", JStr _ [65; 10]%N)]) 52 /\
  (exists e c, parse (bench_p f64_toy (fun s => s) false) (bs "[1 2]") = Failure e c) /\
  bench_main f64_toy (fun s => s) false (bs "[1 2]") = None.
Proof. split; [vm_compute; reflexivity|]. split; [do 2 eexists; vm_compute; reflexivity|vm_compute; reflexivity]. Qed.
Print Assumptions C104_char_exact.
Print Assumptions C104_always_returns.
Print Assumptions C104_same_as_example.
Print Assumptions C104_main.

(** ** C105: the byte reader *)
(** Full statement: on the UTF-8 bytes of a text it gives what the char reader gives on the text.  False: \u escapes are rejected
    (and the benchmarked function panics), and the other escapes are not decoded. *)
Theorem C105_same_refuted : exists s1 s2 (v2 v2' : json nat), forall f64_parse lossy, (forall t, utf8_valid t = true -> lossy t = t) ->
  (exists v1 n, parse (bench_p f64_parse lossy false) s1 = Success v1 n) /\ bench_main f64_parse lossy true s1 = None /\
  parse (bench_p f64_parse lossy false) s2 = Success v2 (length s2) /\
  parse (bench_p f64_parse lossy true) s2 = Success v2' (length s2) /\ v2 <> v2'.
Proof.
  exists (bs """\u0041"""), (bs """\n"""), (JStr _ [10%N]), (JStr _ [92; 110]%N). intros f lossy Hl.
  split; [do 2 eexists; vm_compute; reflexivity|]. split; [vm_compute; reflexivity|]. split; [vm_compute; reflexivity|].
  split; [|intros K; inv K]. specialize (Hl [92; 110]%N eq_refl).
  assert (E : parse (bench_p f lossy true) (bs """\n""") = Success (JStr nat (lossy [92; 110]%N)) 4) by (vm_compute; reflexivity).
  rewrite E, Hl. reflexivity.
Qed.
Section Bytes.
Variable F : Type.
Variable f64_parse : list N -> F + unit.
Variable lossy : list N -> list N.
(** f64::from_str reads every JSON number. *)
Hypothesis f64_total : forall s, g_number s -> exists x, f64_parse s = inl x.
Lemma byte_bench : forall inp, match bench_p f64_parse lossy true inp 0 with
  | Success v n => n = length inp /\ bdoc (raw_string lossy) (num_text f64_parse) v inp
  | Failure _ _ => True
  | Panic | Diverge => False
  end.
Proof.
  intros inp. eapply h_bench with (GS := raw_string lossy) (GN := num_text f64_parse).
  - apply (@raw_ne lossy).
  - intros x s K. apply number_hd with (1 := proj1 K).
  - apply bh_string.
  - now apply bh_number.
  - intros. now apply ba_string.
  - intros. now apply br_string.
  - intros. now apply ba_number.
  - intros. now apply br_number.
Qed.
End Bytes.
(** What it accepts: documents without \u escapes, strings standing for the text between their quotes.  (f64::from_str must read
    JSON numbers, or the unwrap panics.) *)
Theorem C105_byte_exact_partial : forall F (f64_parse : list N -> F + unit) lossy,
  (forall s, g_number s -> exists x, f64_parse s = inl x) -> forall inp v n,
  parse (bench_p f64_parse lossy true) inp = Success v n <-> n = length inp /\ bdoc (raw_string lossy) (num_text f64_parse) v inp.
Proof.
  intros F f lossy Ht inp v n. unfold parse. split.
  - intros E. pose proof (byte_bench f lossy Ht inp) as H. now rewrite E in H.
  - intros [-> H]. eapply bench_complete with (GS := raw_string lossy) (GN := num_text f).
    + apply (@raw_ne lossy).
    + intros x s K. apply number_hd with (1 := proj1 K).
    + apply bh_string.
    + now apply bh_number.
    + intros. now apply ba_string.
    + intros. now apply br_string.
    + intros. now apply ba_number.
    + intros. now apply br_number.
    + exact H.
Qed.
Theorem C105_byte_returns : forall F (f64_parse : list N -> F + unit) lossy,
  (forall s, g_number s -> exists x, f64_parse s = inl x) -> forall inp,
  parse (bench_p f64_parse lossy true) inp <> Panic /\ parse (bench_p f64_parse lossy true) inp <> Diverge.
Proof. intros F f lossy Ht inp. unfold parse. pose proof (byte_bench f lossy Ht inp) as H. destruct (bench_p f lossy true inp 0); split; easy. Qed.
(** Without backslashes it is the reader of examples/json_byte.rs, so (C90) also that of the chars. *)
Lemma no_escape_items : forall is, Forall (item_ok false) is -> ~ In 92%N (flat_map item_text is) ->
  is = map SRaw (flat_map item_text is).
Proof.
  intros is H. induction H as [|i is Hi _ IH]; intros K; [reflexivity|]. destruct i as [x|c|h].
  - cbn [flat_map item_text app map]. f_equal. apply IH. intros J. apply K. now right.
  - exfalso. apply K. now left.
  - exfalso. apply K. now left.
Qed.
Lemma raws_plain : forall enc t, items_value enc (map SRaw t) = t.
Proof. intros enc t. induction t as [|x t IH]; [reflexivity|]. cbn [map items_value]. now rewrite IH. Qed.
Theorem C105_same_without_escapes_partial : forall F (f64_parse : list N -> F + unit) lossy,
  (forall s, g_number s -> exists x, f64_parse s = inl x) -> (forall t, utf8_valid t = true -> lossy t = t) ->
  forall s, utf8_valid s = true -> ~ In 92%N s -> forall v n,
  parse (bench_p f64_parse lossy true) s = Success v n <-> parse (json_p f64_parse true) s = Success v n.
Proof.
  intros F f lossy Ht Hl s Hv Hb v n. rewrite (C105_byte_exact_partial f lossy Ht), C48_accepts_exactly_partial, <- bdoc_jdoc.
  split; intros [-> (a & t & b & E & Ha & Hj & Hb')]; (split; [reflexivity|]); exists a, t, b; repeat split; try assumption.
  - eapply (proj1 (bval_local (raw_string lossy) (g_string false true) (num_text f))) with (l0 := a) (r0 := b); [exact Hj|].
    intros v' s' l r (is & H1 & H2 & -> & ->) E'. rewrite <- E in E'. exists is. split; [exact H1|]. split; [reflexivity|].
    assert (V : utf8_valid (flat_map item_text is) = true).
    { rewrite E' in Hv. rewrite <- !app_assoc in Hv. cbn [app] in Hv. rewrite utf8_valid_split in Hv by reflexivity.
      apply andb_true_iff in Hv. destruct Hv as [_ Hv]. rewrite utf8_valid_split in Hv by reflexivity. now apply andb_true_iff in Hv. }
    assert (B : ~ In 92%N (flat_map item_text is)).
    { intros K. apply Hb. rewrite E'. apply in_or_app. right. apply in_or_app. left. right. cbn [app]. apply in_or_app. now left. }
    split; [|intros _; exact V]. rewrite (Hl _ V). pose proof (no_escape_items H1 B) as Ei. rewrite Ei at 2. now rewrite raws_plain.
  - eapply (proj1 (bval_local (g_string false true) (raw_string lossy) (num_text f))) with (l0 := a) (r0 := b); [exact Hj|].
    intros v' s' l r (is & H1 & -> & -> & H2) E'. rewrite <- E in E'. exists is. split; [exact H1|].
    assert (B : ~ In 92%N (flat_map item_text is)).
    { intros K. apply Hb. rewrite E'. apply in_or_app. right. apply in_or_app. left. right. cbn [app]. apply in_or_app. now left. }
    pose proof (no_escape_items H1 B) as Ei. split; [rewrite Ei; apply Forall_forall; intros i Hi; apply in_map_iff in Hi; now destruct Hi as (x & <- & _)|].
    split; [reflexivity|]. rewrite (Hl _ (H2 eq_refl)). rewrite Ei at 1. now rewrite raws_plain.
Qed.
Example C105_example :
  parse (bench_p f64_toy (fun s => s) true) (bs "{""k"":[""x"",-1.5e3,false,]}") =
    parse (json_p f64_toy true) (bs "{""k"":[""x"",-1.5e3,false,]}") /\
  (exists v n, parse (bench_p f64_toy (fun s => s) true) (bs "{""k"":[""x"",-1.5e3,false,]}") = Success v n) /\
  (forall s, g_number s -> exists x, f64_toy s = inl x).
Proof. split; [vm_compute; reflexivity|]. split; [do 2 eexists; vm_compute; reflexivity|]. intros s _. eexists. reflexivity. Qed.
Print Assumptions C105_same_refuted.
Print Assumptions C105_byte_exact_partial.
Print Assumptions C105_byte_returns.
Print Assumptions C105_same_without_escapes_partial.
