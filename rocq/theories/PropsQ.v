(** C99-C101: which HOCON texts are read as what, printing and reading back, JSON among HOCON. *)
From Coq Require Import Permutation.
From Verif Require Import PropsH.
From Verif Require Import Base Core Comb Closure RepFacts LitFacts Hoare Runs Weak Agree Text Json JsonSpec JsonFacts Hocon HoconFacts HoconParse HoconLookup HoconResolve
  HoconSpec HoconComplete HoconDisplay HoconJson.
Set Implicit Arguments.
Local Open Scope string_scope.
Local Open Scope nat_scope.
Local Open Scope list_scope.

(** ** C99: a document is read as what it spells *)
(** The whole text is consumed, and the value is the one of the grammar in HoconSpec.v, whatever the text. *)
Theorem C99_documents_read_partial : forall D (dec : list N -> option D) s v, hdoc dec s v -> hocon_p dec s 0 = Success [v] (length s).
Proof. intros D dec s v. apply doc_complete. Qed.
(** No text spells two values. *)
Theorem C99_unambiguous : forall D (dec : list N -> option D) s v v', hdoc dec s v -> hdoc dec s v' -> v = v'.
Proof. intros D dec s v v' H H'. apply doc_complete in H, H'. congruence. Qed.
(** A document with layout, comments, both separators, unquoted and quoted strings, durations, references, arrays and nested blocks. *)
Definition lf : list N := [10%N].
Definition q (s : string) : list N := [34%N] ++ bs s ++ [34%N].
Definition doc_text : list N :=
  bs "# first" ++ lf ++ lf ++
  (bs "a.b" ++ bs " " ++ bs "=" ++ bs " " ++ bs "hello world") ++ lf ++
  (bs "c" ++ bs " " ++ (bs "{" ++ lf ++
     ((q "d e" ++ [] ++ bs ":" ++ bs " " ++ (bs "10" ++ bs " " ++ bs "ms")) ++ [] ++ bs "," ++ bs " " ++
      ((bs "f" ++ [] ++ bs "=" ++ [] ++ (bs "${" ++ [] ++ bs "?" ++ bs "a.b" ++ [] ++ bs "}")) ++ lf)) ++ bs "}")) ++ lf ++
  ((bs "g" ++ bs " " ++ bs "=" ++ bs " " ++ (bs "[" ++ bs " " ++ (bs "1.5" ++ [] ++ bs "," ++ bs " " ++ (bs "true" ++ bs " ")) ++ bs "]")) ++ []).
Ltac wsp := first [constructor; fail | repeat constructor; cbn; intuition].
Lemma gap0 : gap []. Proof. exists [], []. split; [reflexivity|]. split; [exists [], []; split; [reflexivity|split; constructor]|constructor]. Qed.
Lemma block0 : block []. Proof. exists [], []. split; [reflexivity|]. split; constructor. Qed.
Lemma gapw : forall w, ws w -> gap w.
Proof. intros w H. exists [], w. split; [reflexivity|]. split; [exact block0|exact H]. Qed.
Lemma blockw : forall w, ws w -> block w.
Proof. intros w H. exists w, []. split; [now rewrite app_nil_r|]. split; [exact H|constructor]. Qed.
Lemma ws_sp : ws (bs " "). Proof. repeat constructor. Qed.
Lemma ws_lf : ws lf. Proof. constructor; [cbn; intuition|constructor]. Qed.
Lemma pathl : forall s, s <> [] -> Forall path_letter s -> g_path s. Proof. intros; now apply gp_one. Qed.
Lemma plett : forall s, forallb is_ascii_alpha s = true -> Forall path_letter s.
Proof. intros s H. rewrite forallb_forall in H. apply Forall_forall. intros x Hx. left. now apply letter_alpha, H. Qed.
Lemma path_ab : g_path (bs "a.b").
Proof. change (bs "a.b") with (bs "a" ++ bs "." ++ bs "b"). apply gp_more; [discriminate|now apply plett|]. apply gp_one; [discriminate|now apply plett]. Qed.
Lemma path1 : forall s, s <> [] -> forallb is_ascii_alpha s = true -> g_path s.
Proof. intros s Hn H. apply gp_one; [exact Hn|now apply plett]. Qed.
Lemma uns_int : forall x ds, (49 <= x <= 57)%N -> Forall digit ds -> g_unsigned (x :: ds).
Proof.
  intros x ds Hx Hd. exists (x :: ds), [], []. split; [now rewrite !app_nil_r|]. split; [right; now exists x, ds|]. split; [now left|]. split; [now left|easy].
Qed.
Lemma quoted_plain : forall s, s <> [] -> forallb (fun x => (32 <=? x)%N && negb (existsb (N.eqb x) ([34; 92]%N ++ bs "[]'"))) s = true -> utf8_valid s = true -> solid (s ++ [34%N]) ->
  g_quoted s ([34%N] ++ s ++ [34%N]).
Proof.
  intros s Hn H Hu Hs. apply (legible_quoted (fun _ => @None unit)). split; [exact Hn|]. split; [|now split]. rewrite forallb_forall in H. apply Forall_forall. intros x Hx. specialize (H x Hx).
  apply andb_true_iff in H. destruct H as [H1 H2]. apply N.leb_le in H1. split; [exact H1|]. apply negb_true_iff in H2. intros C.
  enough (existsb (N.eqb x) ([34; 92]%N ++ bs "[]'") = true) by congruence. apply existsb_exists. exists x. split; [exact C|apply N.eqb_refl].
Qed.
Ltac qp := apply quoted_plain; [discriminate|reflexivity|reflexivity|cbn; intuition discriminate].
Ltac uns := apply uns_int; [split; vm_compute; discriminate|repeat constructor; vm_compute; discriminate].
Definition doc_value : cv (list N) :=
  CObj [(bs "a.b", CStr (bs "hello world")); (bs "c", CObj [(bs "d e", CDur (bs "10") UMillis); (bs "f", CRef None (bs "a.b") true)]);
        (bs "g", CArr [CNum (bs "1.5"); CBool true])].
Lemma bare_hw : g_bare (bs "hello world").
Proof.
  split; [repeat constructor; cbn; intuition discriminate|]. split; [reflexivity|]. split; [exists 104%N, (bs "ello world"); split; [reflexivity|]; cbn; unfold digit; intuition (discriminate || lia)|].
  split; [|split].
  - intros t x E. replace x with (last (t ++ [x]) 0%N) by apply last_last. rewrite <- E. cbn. intuition discriminate.
  - intros a b E. enough (In 47%N (bs "hello world")) by (cbn in *; intuition discriminate). rewrite E. apply in_or_app. right. now left.
  - intros w t Hw E. cbn in Hw. repeat destruct Hw as [<-|Hw]; try easy; discriminate E.
Qed.
Example C99_case : hdoc Some doc_text doc_value /\ hocon_p Some doc_text 0 = Success [doc_value] 74.
Proof.
  assert (H : hdoc Some doc_text doc_value).
  { unfold doc_text, doc_value.
    match goal with |- hdoc _ (?a ++ ?b ++ ?c ++ ?d) _ => change (a ++ b ++ c ++ d) with ((bs "# first" ++ lf ++ lf) ++ d) end.
    apply hd_root.
    - exists (bs "# first" ++ lf), lf. split; [reflexivity|]. split; [|exact ws_lf]. exists [], [bs "# first" ++ lf]. split; [reflexivity|]. split; [constructor|].
      constructor; [|constructor]. exists (bs "#"), (bs " first"), 10%N. split; [reflexivity|]. split; [now left|]. split; [repeat constructor; unfold newline; intuition discriminate|now left].
    - apply hr_more; [apply gapw, ws_lf|exists 10%N; split; [now left|now left]| |].
      + apply hk_kv; [left; split; [reflexivity|exact path_ab]|apply blockw, ws_sp|now left|apply gapw, ws_sp|]. apply hv_bare; [exact bare_hw|now left].
      + apply hr_more; [apply gapw, ws_lf|exists 10%N; split; [now left|now left]| |].
        * apply hk_obj; [left; split; [reflexivity|now apply path1]|apply gapw, ws_sp|]. apply ho_some; [apply gapw, ws_lf| | |].
          -- apply hb_comma; [exact gap0|apply gapw, ws_sp| |].
             ++ apply hk_kv; [right; qp|exact block0|now right|apply gapw, ws_sp|].
                apply hv_dur; [uns|reflexivity|exact ws_sp|unfold g_unit; cbn; intuition|unfold letter; cbn; lia].
             ++ apply hb_one; [apply gapw, ws_lf|]. apply hk_kv; [left; split; [reflexivity|now apply path1]|exact block0|now left|exact gap0|].
                apply (@hv_ref _ Some true); [constructor|exact path_ab|constructor].
          -- repeat constructor; cbn; intuition discriminate.
          -- exists [], lf. eexists. split; [reflexivity|]. split; [constructor|]. split; [split; [unfold stop_char; cbn; intuition|discriminate]|].
             split; [apply gapw, ws_lf|]. split; [cbn; intuition discriminate|cbn; intuition discriminate].
        * apply hr_one; [exact block0|]. apply hk_kv; [left; split; [reflexivity|now apply path1]|apply blockw, ws_sp|now left|apply gapw, ws_sp|].
          apply hv_arr, ha_some; [apply gapw, ws_sp|]. apply he_more; [exact gap0|apply gapw, ws_sp| |].
          -- apply hv_num; [|reflexivity|cbn; unfold digit; intuition (discriminate || lia)|].
             ++ exists (bs "1"), (bs ".5"), []. split; [reflexivity|]. split; [right; exists 49%N, []; repeat split; (lia || constructor)|].
                split; [right; exists (bs "5"); split; [reflexivity|]; split; [repeat constructor; vm_compute; discriminate|discriminate]|]. split; [now left|easy].
             ++ intros w Hw t E. cbn in Hw. repeat destruct Hw as [<-|Hw]; try easy; discriminate E.
          -- apply he_one; [apply gapw, ws_sp|]. constructor.
    - repeat constructor; cbn; intuition discriminate. }
  split; [exact H|]. exact (C99_documents_read_partial H).
Qed.
(** What is missing: texts of HOCON proper that are outside the grammar, and why they are.  A comment after an unquoted string becomes a part of it. *)
Definition root_of (k : string) (v : cv (list N)) : cv (list N) := CObj [(bs k, v)].
Theorem C99_comment_refuted : exists s c, hdoc Some s (root_of "a" (CStr (bs "hello"))) /\ c = bs " # note" /\
  hocon_p Some (s ++ c) 0 = Success [root_of "a" (CStr (bs "hello # note"))] (length (s ++ c)).
Proof.
  exists (bs "a = hello"), (bs " # note"). split; [|split; [reflexivity|vm_compute; reflexivity]].
  change (bs "a = hello") with ([] ++ (bs "a" ++ bs " " ++ bs "=" ++ bs " " ++ bs "hello") ++ []). apply hd_root; [exact gap0| |repeat constructor; intuition].
  apply hr_one; [exact block0|]. apply hk_kv; [left; split; [reflexivity|now apply path1]|apply blockw, ws_sp|now left|apply gapw, ws_sp|].
  apply hv_bare; [|exact I]. split; [repeat constructor; cbn; intuition discriminate|]. split; [reflexivity|].
  split; [exists 104%N, (bs "ello"); split; [reflexivity|]; cbn; unfold digit; intuition (discriminate || lia)|]. split; [|split].
  - intros t x E. replace x with (last (t ++ [x]) 0%N) by apply last_last. rewrite <- E. cbn. intuition discriminate.
  - intros a b E. enough (In 47%N (bs "hello")) by (cbn in *; intuition discriminate). rewrite E. apply in_or_app. right. now left.
  - intros w t Hw E. cbn in Hw. repeat destruct Hw as [<-|Hw]; try easy; discriminate E.
Qed.
(** Braces around the members of the root may make the text unreadable. *)
Definition rejected (s : list N) : Prop := exists e c, hocon_p (D := list N) Some s 0 = Failure e c.
Theorem C99_braces_refuted : exists t ps, hroot (D := list N) Some t ps /\ NoDup (map fst ps) /\ rejected (bs "{" ++ t ++ bs "}").
Proof.
  exists (bs "a=[1]"), [(bs "a", CArr [CNum (bs "1")])]. split; [|split; [repeat constructor; intuition|unfold rejected; vm_compute; do 2 eexists; reflexivity]].
  change (bs "a=[1]") with ((bs "a" ++ [] ++ bs "=" ++ [] ++ (bs "[" ++ [] ++ (bs "1" ++ []) ++ bs "]")) ++ []).
  apply hr_one; [exact block0|]. apply hk_kv; [left; split; [reflexivity|now apply path1]|exact block0|now left|exact gap0|].
  apply hv_arr, ha_some; [exact gap0|]. apply he_one; [exact gap0|]. apply hv_num; [uns|reflexivity|cbn; unfold digit; intuition (discriminate || lia)|].
  intros w Hw t E. cbn in Hw. repeat destruct Hw as [<-|Hw]; try easy; discriminate E.
Qed.
(** Commas between the members of the root, keys with digits, unquoted addresses, words that begin with "null", comments on adjacent indented lines and long names of units are
    rejected. *)
Theorem C99_notation_refuted : Forall rejected
  [bs "a = 1," ++ lf ++ bs "b = 2"; bs "a1 = 1"; bs "host = 127.0.0.1"; bs "a = nullable"; bs "{" ++ lf ++ bs " # x" ++ lf ++ bs " # y" ++ lf ++ bs " a = 1}"; bs "a = 5 seconds";
   bs "{ a = x }"; bs "a = [1" ++ lf ++ bs "2]"; bs "a = ${b}c"].
Proof. repeat apply Forall_cons; try apply Forall_nil; unfold rejected; vm_compute; do 2 eexists; reflexivity. Qed.
Print Assumptions C99_documents_read_partial.
Print Assumptions C99_unambiguous.
Print Assumptions C99_comment_refuted.
Print Assumptions C99_braces_refuted.
Print Assumptions C99_notation_refuted.

(** ** C100: a configuration reads back from its print *)
(** [v'] is [v] with the entries of its objects in the order in which they happen to be visited.  The print shows the newest values; read back, it is these
    values, in that order. *)
Theorem C100_round_trip_partial : forall D (show : D -> list N) (dec : list N -> option D) v v', reorder v v' -> legible show dec (newest_of v) ->
  exists w, reorder (newest_of v) w /\ hocon_p dec (text show v') 0 = Success [w] (length (text show v')).
Proof.
  intros D show dec v v' R L. exists (newest_of v'). pose proof (reorder_newest R) as R'. split; [exact R'|]. rewrite <- text_newest.
  apply doc_complete, text_doc. eapply reorder_legible; eassumption.
Qed.
(** Without references and without dots in the keys of the root, loading the print gives the values that were printed. *)
Theorem C100_reload_partial : forall D (show : D -> list N) (dec : list N -> option D) env files v v', reorder v v' -> legible show dec (newest_of v) -> noref (newest_of v) ->
  (forall m, newest_of v = CObj m -> forall k, In k (map fst m) -> no_dot k) ->
  exists w n, reorder (newest_of v) w /\ forall fuel, n <= fuel -> parse_from_string dec env files fuel (text show v') = ROk (Some w).
Proof.
  intros D show dec env files v v' R L N K. pose proof (reorder_newest R) as R'. pose proof (reorder_noref R' N) as N'.
  assert (E : hocon_p dec (text show v') 0 = Success [newest_of v'] (length (text show v'))).
  { rewrite <- text_newest. apply doc_complete, text_doc. eapply reorder_legible; eassumption. }
  destruct (noref_settles dec env files N') as [S _]. destruct (S (newest_of v')) as [n En]. exists (newest_of v'), (Datatypes.S n). split; [exact R'|].
  intros fuel Hf. unfold parse_from_string, parse_from_string_with. rewrite E. unfold resolve_stage0, resolve_stage1.
  assert (U : resolve dec env files fuel (newest_of v') None = ROk (newest_of v')).
  { destruct fuel as [|fuel]; [lia|]. destruct L as [L|[L (m & Em)]].
    - inv L. match goal with H : CArr _ = newest_of v |- _ => rewrite <- H in R' end. inv R'. reflexivity.
    - rewrite Em in R'. destruct (reorder_root_keys R') as (m' & Em' & Km). rewrite Em'. apply undot_nothing. intros k Hk. apply (K m Em). now apply Km. }
  rewrite U. cbn [rbind rmap fold_left]. rewrite En by lia. reflexivity.
Qed.
Definition shown : cv (list N) :=
  CObj [(bs "a", CObj [(bs "b", CStr (bs "x y")); (bs "c", CNum (bs "12"))]); (bs "d", CLink (CBool true) (CBool false))].
Example C100_case : legible (fun d => d) Some (newest_of shown) /\ noref (newest_of shown) /\
  text (fun d => d) shown = bs "{ a = { b = " ++ q "x y" ++ bs ", c = 12 }, d = false }" /\
  parse_from_string Some (fun _ => None) (fun _ => None) 9 (text (fun d => d) shown) = ROk (Some (newest_of shown)).
Proof.
  split; [|split; [|split; vm_compute; reflexivity]].
  - right. split; [|eexists; reflexivity]. cbn. apply fl_obj; [repeat constructor; cbn; intuition discriminate|]. repeat apply Forall_cons; cbn [fst snd]; try apply Forall_nil.
    + split; [now apply path1|]. apply fl_obj; [repeat constructor; cbn; intuition discriminate|]. repeat apply Forall_cons; cbn [fst snd]; try apply Forall_nil.
      * split; [now apply path1|]. apply fl_scalar, sc_str. split; [discriminate|]. split; [repeat constructor; cbn; intuition (lia || discriminate)|]. split; [reflexivity|cbn; intuition discriminate].
      * split; [now apply path1|]. apply fl_scalar, sc_num. split; [uns|reflexivity].
    + split; [now apply path1|]. apply fl_scalar, sc_bool.
  - cbn. repeat constructor.
Qed.
(** In general the print does not read back: arrays in objects, empty strings and strings with brackets make it unreadable, negative numbers lose their sign, and a quote in a string
    changes the configuration: here the value of the key a prints as a text with a second key. *)
Theorem C100_round_trip_refuted :
  Forall (fun v => rejected (text (fun d => d) v))
    [CObj [(bs "a", CArr [CNum (bs "1")])]; CObj [(bs "a", CStr [])]; CObj [(bs "a", CStr (bs "x[0]"))]; CArr [CObj []; CArr []]] /\
  (exists v w : cv (list N), hocon_p Some (text (fun d => d) v) 0 = Success [w] (length (text (fun d => d) v)) /\
     v = CObj [(bs "a", CNum (bs "-1"))] /\ w = CObj [(bs "a", CNum (bs "1"))]) /\
  exists v w : cv (list N), hocon_p Some (text (fun d => d) v) 0 = Success [w] (length (text (fun d => d) v)) /\
     v = CObj [(bs "a", CStr (bs "x" ++ [34%N] ++ bs ", b = " ++ [34%N] ++ bs "y"))] /\ w = CObj [(bs "a", CStr (bs "x")); (bs "b", CStr (bs "y"))].
Proof.
  split; [repeat apply Forall_cons; try apply Forall_nil; unfold rejected; vm_compute; do 2 eexists; reflexivity|]. split; eexists; eexists; (split; [|split; reflexivity]); vm_compute; reflexivity.
Qed.
Print Assumptions C100_round_trip_partial.
Print Assumptions C100_reload_partial.
Print Assumptions C100_round_trip_refuted.

(** ** C101: JSON documents are HOCON documents with the same value *)
Theorem C101_json_read_partial : forall F D (f64_parse : list N -> F + unit) (dec : list N -> option D) (conv : F -> D),
  (forall s x, g_unsigned s -> f64_parse s = inl x -> dec s = Some (conv x)) ->
  forall s v, sjdoc f64_parse s v -> jdoc f64_parse true true v s /\ hocon_p dec s 0 = Success [as_hocon conv v] (length s).
Proof.
  intros F D f64_parse dec conv H s v Hs. destruct (sjdoc_hdoc dec conv H Hs) as [J E]. split; [exact J|now apply doc_complete].
Qed.
Example C101_case : exists s, s = bs "{" ++ lf ++ q "a" ++ bs ": {" ++ q "b" ++ bs ":[1, null]}," ++ lf ++ q "c" ++ bs ":2 }" /\
  sjdoc (F := list N) inl s (JObject [(bs "a", JObject [(bs "b", JArray [JNum (bs "1"); JNull _])]); (bs "c", JNum (bs "2"))]).
Proof.
  eexists. split; [reflexivity|]. exists [].
  exists (bs "{" ++ lf ++ ((q "a" ++ [] ++ bs ":" ++ bs " " ++ (bs "{" ++ [] ++ ((q "b" ++ [] ++ bs ":" ++ [] ++
    (bs "[" ++ [] ++ (bs "1" ++ [] ++ bs "," ++ bs " " ++ (bs "null" ++ [])) ++ bs "]")) ++ []) ++ bs "}")) ++ [] ++ bs "," ++ lf ++
    ((q "c" ++ [] ++ bs ":" ++ [] ++ bs "2") ++ bs " ")) ++ bs "}"), []. split; [reflexivity|]. split; [constructor|]. split; [|split; [constructor|right; eauto]].
  apply sj_obj; [exact ws_lf| |repeat constructor; cbn; intuition discriminate].
  apply sm_more; [qp|constructor|exact ws_sp| |constructor|exact ws_lf|].
  - apply sj_obj; [constructor| |repeat constructor; cbn; intuition discriminate]. apply sm_one; [qp|constructor|constructor| |constructor].
    apply sj_arr; [constructor|]. apply se_more; [apply sj_num; [uns|reflexivity]|constructor|exact ws_sp|]. apply se_one; constructor.
  - apply sm_one; [qp|constructor|constructor|apply sj_num; [uns|reflexivity]|exact ws_sp].
Qed.
(** In general they are not: documents with an array after an object in an array or with an empty string are rejected, and negative numbers lose their sign. *)
Theorem C101_json_refuted :
  (exists s v, jdoc (F := list N) inl true true v s /\ s = bs "[{},[]]" /\ rejected s) /\
  (exists s v, jdoc (F := list N) inl true true v s /\ s = bs "{" ++ q "a" ++ bs ":" ++ q "" ++ bs "}" /\ rejected s) /\
  exists s, jdoc (F := list N) inl true true (JArray [JNum (bs "-1")]) s /\ hocon_p Some s 0 = Success [CArr [CNum (bs "1")]] (length s).
Proof.
  split; [|split].
  - exists (bs "[{},[]]"), (JArray [JObject []; JArray []]). split; [|split; [reflexivity|unfold rejected; vm_compute; do 2 eexists; reflexivity]].
    exists [], (bs "[" ++ ([] ++ (bs "{" ++ [] ++ bs "}") ++ [] ++ bs "," ++ ([] ++ (bs "[" ++ [] ++ bs "]") ++ [])) ++ [] ++ bs "]"), [].
    split; [reflexivity|]. split; [constructor|]. split; [|constructor]. apply j_arr; [|now left]. apply je_more; [constructor|apply j_obj0; constructor|constructor|]. apply je_one; [constructor|apply j_arr0; constructor|constructor].
  - exists (bs "{" ++ q "a" ++ bs ":" ++ q "" ++ bs "}"), (JObject [(bs "a", JStr _ [])]). split; [|split; [reflexivity|unfold rejected; vm_compute; do 2 eexists; reflexivity]].
    exists [], (bs "{" ++ ([] ++ q "a" ++ [] ++ bs ":" ++ [] ++ q "" ++ []) ++ [] ++ bs "}"), []. split; [reflexivity|]. split; [constructor|]. split; [|constructor].
    apply (@j_obj _ _ true true [(bs "a", JStr _ [])]); [|now left]. apply jm_one; [constructor| |constructor|constructor|apply j_str|constructor].
    + exists [SRaw 97%N]. repeat split; try reflexivity. repeat constructor; cbn; discriminate || lia.
    + exists []. repeat split; constructor.
  - exists (bs "[-1]"). split; [|vm_compute; reflexivity]. exists [], (bs "[" ++ ([] ++ bs "-1" ++ []) ++ [] ++ bs "]"), []. split; [reflexivity|].
    split; [constructor|]. split; [|constructor]. apply j_arr; [|now left]. apply je_one; [constructor| |constructor]. apply j_num; [|reflexivity].
    exists (bs "-"), (bs "1"), [], []. split; [reflexivity|]. split; [now right|]. split; [right; exists 49%N, []; repeat split; (lia || constructor)|]. split; now left.
Qed.
Print Assumptions C101_json_read_partial.
Print Assumptions C101_json_refuted.
