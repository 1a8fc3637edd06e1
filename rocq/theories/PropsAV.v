(** C141: the texts of errors. *)
From Verif Require Import PropsC.
From Verif Require Import Base Core Comb Text ErrorText.
Set Implicit Arguments.
Local Open Scope string_scope.
Local Open Scope nat_scope.
Local Open Scope list_scope.

(** The wanted property, full statement:
    forall I (e1 e2 : perror I), show_error e1 = show_error e2 <-> same_report e1 e2
    (the text of an error tells its kind, its place, its message and those of the errors inside it; it says nothing about the input), and
    forall e s, error_input e = Some (Some s) -> input_string_bytes e = Some (Some s).
    The first is false because messages may imitate the text, the second for bytes that are no text by themselves. *)
Theorem C141_text_determines_partial : forall I (e1 e2 : perror I), legible e1 -> legible e2 -> (show_error e1 = show_error e2 <-> same_report e1 e2).
Proof. intros I e1 e2 L1 L2. split; [now apply show_determines|apply same_report_show]. Qed.
Theorem C141_text_determines_refuted : exists e1 e2 : perror N, show_error e1 = show_error e2 /\ is_expect e1 <> is_expect e2 /\ ~ same_report e1 e2.
Proof. exists (Expect 3 Incomplete "Mismatch"), (Mismatch [] 3 1 "Incomplete"). split; [reflexivity|]. split; [discriminate|]. intros H. inversion H. Qed.
(** Also with messages that do not name the kinds of errors: two places can look like one. *)
Theorem C141_places_refuted : exists o1 o2 m1 m2 (d1 d2 : perror N), o1 <> o2 /\ m1 <> "" /\ m2 <> "" /\ show_error (Expect o1 d1 m1) = show_error (Expect o2 d2 m2).
Proof.
  exists 3, 5, "a", "a at 3: b", (Expect 5 Incomplete "b"), (@Incomplete N). repeat split; try discriminate.
Qed.
(** The text of an error inside is part of the text of the error. *)
Theorem C141_inner_shown : forall I (e d : perror I), wraps e d -> exists a b, show_error e = a ++ show_error d ++ b.
Proof.
  intros I e d H. induction H as [e|o e d m H [a [b IH]]|o e d m H [a [b IH]]].
  - exists [], []. now rewrite app_nil_r.
  - exists (bs m ++ bs " at " ++ num o ++ bs ": " ++ a), b. cbn [show_error]. rewrite IH. now rewrite <- !app_assoc.
  - exists (bs m ++ bs " at " ++ num o ++ bs ", (inner: " ++ a), (b ++ bs ")"). cbn [show_error]. rewrite IH. now rewrite <- !app_assoc.
Qed.
(** name and expect keep what the error said before. *)
Theorem C141_decorated : forall I A (p : parser I A) m inp off e c,
  p_expect p m inp off = Failure e c \/ p_name p m inp off = Failure e c -> exists d a b, p inp off = Failure d c /\ show_error e = a ++ show_error d ++ b.
Proof. intros I A p m inp off e c H. destruct (@C29_wrapped _ _ _ _ _ _ _ _ H) as (d & E & W & _). destruct (C141_inner_shown W) as (a & b & F). eauto. Qed.
(** On characters the text is the stretch a Mismatch or Conversion points at, however often it is wrapped; errors without one have no text. *)
Theorem C141_input_chars : forall e,
  (forall s, input_string_chars e = Some (Some s) <-> exists inp off len m, (wraps e (Mismatch inp off len m) \/ wraps e (Conversion inp off len m)) /\
    off + len <= length inp /\ s = firstn len (skipn off inp)) /\
  (input_string_chars e = Some None <-> wraps e Incomplete \/ exists o m, wraps e (Custom o None m)).
Proof.
  assert (S : forall (inp : list N) off len s, slice inp off (off + len) = Some s <-> off + len <= length inp /\ s = firstn len (skipn off inp)).
  { intros inp off len s. unfold slice. replace (off + len - off) with len by lia. destruct (Nat.leb_spec off (off + len)); [|lia]. destruct (Nat.leb_spec (off + len) (length inp)); cbn [andb]; split.
    - intros E. now injection E as <-.
    - now intros [_ ->].
    - discriminate.
    - intros [L _]. lia. }
  assert (W : forall e d : perror N, wraps e d -> error_input e = error_input d) by (intros e d H; induction H; [reflexivity|exact IHwraps|exact IHwraps]).
  unfold input_string_chars. intros e. split; [intros s|]; split.
  - revert e. fix IH 1. intros [i o l m|i o l m| |o d m|o [d|] m]; cbn [error_input]; try discriminate.
    1, 2: destruct (slice i o (o + l)) eqn:E; [|discriminate]; intros K; injection K as ->; apply S in E; exists i, o, l, m; split; [|exact E].
    + left. apply wraps_self.
    + right. apply wraps_self.
    + intros K. destruct (IH d K) as (i & o' & l & m' & [Q|Q] & R); exists i, o', l, m'; (split; [|exact R]); [left|right]; now apply wraps_expect.
    + intros K. destruct (IH d K) as (i & o' & l & m' & [Q|Q] & R); exists i, o', l, m'; (split; [|exact R]); [left|right]; now apply wraps_named.
  - intros (i & o & l & m & [Q|Q] & R); rewrite (W _ _ Q); cbn [error_input]; apply S in R; now rewrite R.
  - revert e. fix IH 1. intros [i o l m|i o l m| |o d m|o [d|] m]; cbn [error_input]; try (destruct (slice i o (o + l)); discriminate).
    + intros _. left. apply wraps_self.
    + intros K. destruct (IH d K) as [Q|(o' & m' & Q)]; [left|right; exists o', m']; now apply wraps_expect.
    + intros K. destruct (IH d K) as [Q|(o' & m' & Q)]; [left|right; exists o', m']; now apply wraps_named.
    + intros _. right. exists o, m. apply wraps_self.
  - intros [Q|(o & m & Q)]; now rewrite (W _ _ Q).
Qed.
(** The two kinds of elements agree on ASCII. *)
Theorem C141_input_ascii : forall e, (forall s, input_string_chars e = Some (Some s) -> Forall (fun x => x < 128)%N s) -> input_string_bytes e = input_string_chars e.
Proof.
  intros e H. unfold input_string_bytes, input_string_chars, from_utf8 in *. destruct (error_input e) as [[s|]|]; try reflexivity. specialize (H _ eq_refl).
  assert (V : utf8_valid s = true); [|now rewrite V]. induction H as [|x s Hx H IH]; [reflexivity|]. cbn [utf8_valid]. destruct (N.ltb_spec x 128); [exact IH|lia].
Qed.
(** On bytes the text is that of input(), or empty if that is not UTF-8. *)
Theorem C141_input_bytes : forall e s, error_input e = Some (Some s) -> input_string_bytes e = Some (Some (if utf8_valid s then s else [])).
Proof. intros e s E. unfold input_string_bytes, from_utf8. rewrite E. now destruct (utf8_valid s). Qed.
Theorem C141_input_bytes_refuted : exists inp e c s, utf8_valid inp = true /\ p_elm_pred is_ascii_digit inp 0 = Failure e c /\ error_input e = Some (Some s) /\ s <> [] /\
  input_string_bytes e = Some (Some []).
Proof. exists [97; 195; 169]%N. eexists _, _, _. repeat split; [vm_compute; reflexivity..|discriminate]. Qed.
(** For the parsers of one element and end() exactly the bytes beyond ASCII are lost. *)
Theorem C141_element_bytes : forall (f : N -> bool) inp off e c s, off <= length inp ->
  p_elm_pred f inp off = Failure e c \/ p_end inp off = Failure e c -> error_input e = Some s ->
  exists x, s = Some [x] /\ input_string_bytes e = Some (Some (if (x <? 128)%N then [x] else [])).
Proof.
  intros f inp off e c s Ho H E. destruct (@C29_element_partial _ _ _ _ _ _ Ho H) as [_ K]. destruct (K _ E) as (x & -> & _).
  exists x. split; [reflexivity|]. rewrite (C141_input_bytes _ E). do 2 f_equal. cbn [utf8_valid]. now destruct (x <? 128)%N.
Qed.
Example C141_case : show_error (Custom 0 (Some (Expect 2 (Mismatch (bs "xyz") 3 1 "offset") "digit")) "number" : perror N)
  = bs "number at 0, (inner: digit at 2: Mismatch at 3: offset)".
Proof. vm_compute. reflexivity. Qed.
Example C141_legible_case : legible (Custom 0 (Some (Expect 2 (Mismatch (bs "xyz") 3 1 "offset at 7") "digit")) "number" : perror N).
Proof.
  assert (W : forall m, ~ In 32%N (bs m) -> no_at m). { intros m H a b E. apply H. rewrite E. apply in_or_app. right. left. reflexivity. }
  cbn. repeat split; try discriminate; apply W; cbn; intuition discriminate.
Qed.
Example C141_decorated_case : exists e c, p_expect (p_name (p_elm_pred is_ascii_digit) "digit") "number" (bs "xabcd") 1 = Failure e c /\
  show_error e = bs "number at 0: digit at 0, (inner: Mismatch at 2: offset)".
Proof. eexists _, _. split; vm_compute; reflexivity. Qed.
Example C141_chars_case : let e := Custom 0 (Some (Expect 2 (Mismatch [233; 120; 8364; 121]%N 1 2 "offset") "digit")) "number" in
  input_string_chars e = Some (Some [120; 8364]%N) /\ input_string_chars (Expect 1 Incomplete "x") = Some None /\ input_string_chars (Mismatch [233]%N 1 1 "offset") = None.
Proof. repeat split. Qed.
Example C141_bytes_case : exists e c, p_elm_pred is_ascii_digit (bs "xabcd") 1 = Failure e c /\ input_string_bytes e = Some (Some (bs "c")).
Proof. eexists _, _. split; vm_compute; reflexivity. Qed.
Print Assumptions C141_text_determines_partial.
Print Assumptions C141_text_determines_refuted.
Print Assumptions C141_places_refuted.
Print Assumptions C141_inner_shown.
Print Assumptions C141_decorated.
Print Assumptions C141_input_chars.
Print Assumptions C141_input_ascii.
Print Assumptions C141_input_bytes.
Print Assumptions C141_input_bytes_refuted.
Print Assumptions C141_element_bytes.
