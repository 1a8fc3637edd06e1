(** The texts of errors: Display and input_string of ParseError (parser/src/core/parse_error.rs). *)
From Verif Require Import Base Core Comb Closure Text.
Set Implicit Arguments.
Local Open Scope string_scope.
Local Open Scope nat_scope.
Local Open Scope list_scope.

(** Display of usize. *)
Definition num (o : nat) : list N := show_dec (N.of_nat o).
(** core/parse_error.rs 37-66, with the messages the error carries. *)
Fixpoint show_error {I} (e : perror I) : list N :=
  match e with
  | Incomplete => bs "Incomplete"
  | Mismatch _ o _ m => bs "Mismatch at " ++ num o ++ bs ": " ++ bs m
  | Conversion _ o _ m => bs "Conversion failed at " ++ num o ++ bs ": " ++ bs m
  | Expect o inner m => bs m ++ bs " at " ++ num o ++ bs ": " ++ show_error inner
  | Custom o (Some inner) m => bs m ++ bs " at " ++ num o ++ bs ", (inner: " ++ show_error inner ++ bs ")"
  | Custom o None m => bs m ++ bs " at " ++ num o
  end.
(** core/parse_error.rs 68-72: the String of the characters, here their codes.  Outer [None]: input() panics. *)
Definition input_string_chars (e : perror N) : option (option (list N)) := error_input e.
(** core/parse_error.rs 74-84: a String is its bytes. *)
Definition input_string_bytes (e : perror N) : option (option (list N)) :=
  match error_input e with
  | Some (Some b) => Some (Some (match from_utf8 b with inl s => s | inr _ => [] end))
  | o => o
  end.

(** ** Reading the text of an error *)
(** Errors that differ at most in the input they carry and in how much of it they point at. *)
Inductive same_report {I} : perror I -> perror I -> Prop :=
| Sr_incomplete : same_report Incomplete Incomplete
| Sr_mismatch : forall i j o k l m, same_report (Mismatch i o k m) (Mismatch j o l m)
| Sr_conversion : forall i j o k l m, same_report (Conversion i o k m) (Conversion j o l m)
| Sr_expect : forall o d e m, same_report d e -> same_report (Expect o d m) (Expect o e m)
| Sr_custom : forall o m, same_report (Custom o None m) (Custom o None m)
| Sr_wrapped : forall o d e m, same_report d e -> same_report (Custom o (Some d) m) (Custom o (Some e) m).
(** A message in which the word at does not begin. *)
Definition no_at (m : string) : Prop := forall a b, bs m <> a ++ bs " at" ++ b.
(** The messages of Expect and Custom say nothing that Display itself says. *)
Fixpoint legible {I} (e : perror I) : Prop :=
  match e with
  | Expect _ d m => no_at m /\ m <> "Mismatch" /\ m <> "Conversion failed" /\ legible d
  | Custom _ d m => no_at m /\ m <> "Mismatch" /\ m <> "Conversion failed" /\ match d with Some d => legible d | None => True end
  | _ => True
  end.

Lemma bs_inj : forall s t, bs s = bs t -> s = t.
Proof.
  induction s as [|a s IH]; intros [|b t] H; try discriminate; [reflexivity|]. cbn [bs] in H. injection H as E H.
  rewrite (IH _ H). f_equal. unfold chr in E. rewrite <- (ascii_N_embedding a), <- (ascii_N_embedding b). now rewrite E.
Qed.
Lemma at_split_le : forall m m' (r r' l : list N), no_at m -> bs m = bs m' ++ l -> bs " at " ++ r' = l ++ bs " at " ++ r -> l = [] /\ r = r'.
Proof.
  intros m m' r r' l H E F. destruct l as [|x l]; [split; [reflexivity|]; cbn [app] in F; symmetry; now injection F|]. exfalso.
  destruct l as [|y l]; [now cbn in F|]. destruct l as [|z l]; [now cbn in F|].
  cbn in F. injection F as <- <- <- _. apply (H (bs m') l). exact E.
Qed.
Lemma at_split : forall m m' r r', no_at m -> no_at m' -> bs m ++ bs " at " ++ r = bs m' ++ bs " at " ++ r' -> m = m' /\ r = r'.
Proof.
  intros m m' r r' H H' E. apply app_eq_app in E. destruct E as [l [[E F]|[E F]]].
  - destruct (@at_split_le m m' _ _ _ H E F) as [-> ->]. rewrite app_nil_r in E. split; [now apply bs_inj|reflexivity].
  - destruct (@at_split_le m' m _ _ _ H' E F) as [-> ->]. rewrite app_nil_r in E. split; [symmetry; now apply bs_inj|reflexivity].
Qed.
Definition no_digit (t : list N) : Prop := match t with x :: _ => ~ digit x | [] => True end.
Lemma digits_split : forall a b t u, Forall digit a -> Forall digit b -> no_digit t -> no_digit u -> a ++ t = b ++ u -> a = b /\ t = u.
Proof.
  induction a as [|x a IH]; intros [|y b] t u Ha Hb Ht Hu E.
  - auto.
  - cbn [app] in E. subst t. inversion Hb; subst. contradiction.
  - cbn [app] in E. subst u. inversion Ha; subst. contradiction.
  - injection E as -> E. inversion Ha; inversion Hb; subst. destruct (IH b t u) as [-> ->]; auto.
Qed.
Lemma num_split : forall o o' t u, no_digit t -> no_digit u -> num o ++ t = num o' ++ u -> o = o' /\ t = u.
Proof.
  intros o o' t u Ht Hu E. destruct (show_dec_canonical (N.of_nat o)) as [A _]. destruct (show_dec_canonical (N.of_nat o')) as [B _].
  destruct (@digits_split _ _ _ _ A B Ht Hu E) as [F ->]. split; [|reflexivity]. apply (f_equal dec_value) in F. rewrite !show_dec_value in F. lia.
Qed.

(** Every text but Incomplete is a message, the word at, a number and a rest that tells which case it is. *)
Definition head_of {I} (e : perror I) : string * nat :=
  match e with
  | Incomplete => ("", 0)
  | Mismatch _ o _ _ => ("Mismatch", o)
  | Conversion _ o _ _ => ("Conversion failed", o)
  | Expect o _ m => (m, o)
  | Custom o _ m => (m, o)
  end.
Definition tail_of {I} (e : perror I) : list N :=
  match e with
  | Incomplete => []
  | Mismatch _ _ _ m => bs ": " ++ bs m
  | Conversion _ _ _ m => bs ": " ++ bs m
  | Expect _ d _ => bs ": " ++ show_error d
  | Custom _ (Some d) _ => bs ", (inner: " ++ show_error d ++ bs ")"
  | Custom _ None _ => []
  end.
Lemma show_split : forall I (e : perror I), e <> Incomplete -> show_error e = bs (fst (head_of e)) ++ bs " at " ++ num (snd (head_of e)) ++ tail_of e.
Proof.
  intros I e H. destruct e as [i o k m|i o k m| |o d m|o [d|] m]; try congruence; cbn [show_error head_of tail_of fst snd].
  - change (bs "Mismatch at ") with (bs "Mismatch" ++ bs " at "). now rewrite <- !app_assoc.
  - change (bs "Conversion failed at ") with (bs "Conversion failed" ++ bs " at "). now rewrite <- !app_assoc.
  - reflexivity.
  - reflexivity.
  - now rewrite app_nil_r.
Qed.
Lemma tail_no_digit : forall I (e : perror I), no_digit (tail_of e).
Proof. intros I e. destruct e as [i o k m|i o k m| |o d m|o [d|] m]; cbn; unfold digit; try exact Logic.I; lia. Qed.
Lemma no_at_mismatch : no_at "Mismatch".
Proof.
  intros a b E. assert (F : In 32%N (bs "Mismatch")); [rewrite E; apply in_or_app; right; left; reflexivity|].
  cbn in F. intuition discriminate.
Qed.
Lemma no_at_conversion : no_at "Conversion failed".
Proof.
  intros a b E. assert (L : length a <= 17). { apply (f_equal (@length N)) in E. rewrite !app_length in E. cbn in E. lia. }
  do 18 (destruct a as [|? a]; [cbn in E; discriminate|cbn in E; injection E as _ E; try (destruct a; discriminate)]).
Qed.
Lemma head_no_at : forall I (e : perror I), legible e -> e <> Incomplete -> no_at (fst (head_of e)).
Proof.
  intros I e L H. destruct e as [i o k m|i o k m| |o d m|o d m]; cbn; try congruence.
  - apply no_at_mismatch.
  - apply no_at_conversion.
  - apply L.
  - apply L.
Qed.
Lemma show_not_incomplete : forall I (e : perror I), e <> Incomplete -> show_error e <> bs "Incomplete".
Proof.
  intros I e H E. rewrite (@show_split _ _ H) in E. assert (F : In 32%N (bs "Incomplete")); [rewrite <- E; apply in_or_app; right; left; reflexivity|].
  cbn in F. intuition discriminate.
Qed.
Lemma show_determines : forall I (e1 e2 : perror I), legible e1 -> legible e2 -> show_error e1 = show_error e2 -> same_report e1 e2.
Proof.
  intros I. refine (fix IH (e1 : perror I) : forall e2, legible e1 -> legible e2 -> show_error e1 = show_error e2 -> same_report e1 e2 := _).
  intros e2 L1 L2 E.
  assert (D : forall e : perror I, {e = Incomplete} + {e <> Incomplete}) by (intros []; (now left) || (now right)).
  destruct (D e1) as [->|N1].
  { destruct (D e2) as [->|N2]; [constructor|]. symmetry in E. now apply show_not_incomplete in E. }
  destruct (D e2) as [->|N2]; [now apply show_not_incomplete in E|].
  assert (K : head_of e1 = head_of e2 /\ tail_of e1 = tail_of e2).
  { rewrite (@show_split _ _ N1), (@show_split _ _ N2) in E. apply at_split in E; [|now apply head_no_at|now apply head_no_at].
    destruct E as [A E]. apply num_split in E; [|apply tail_no_digit|apply tail_no_digit]. destruct E as [B C].
    split; [|exact C]. destruct (head_of e1), (head_of e2); cbn in *; now subst. }
  clear D E. destruct K as [H T].
  destruct e1 as [i o k m|i o k m| |o d m|o [d|] m]; [| |congruence| | |];
    destruct e2 as [i' o' k' m'|i' o' k' m'| |o' d' m'|o' [d'|] m']; try congruence; cbn [head_of tail_of legible] in *;
    try discriminate; try (injection H as H1 H2; subst; exfalso; tauto).
  - injection H as ->. apply app_inv_head, bs_inj in T. subst. constructor.
  - injection H as ->. apply app_inv_head, bs_inj in T. subst. constructor.
  - injection H as -> ->. apply app_inv_head in T. constructor. apply IH; tauto.
  - injection H as -> ->. apply app_inv_head, app_inv_tail in T. constructor. apply IH; tauto.
  - injection H as -> ->. constructor.
Qed.
Lemma same_report_show : forall I (e1 e2 : perror I), same_report e1 e2 -> show_error e1 = show_error e2.
Proof. intros I e1 e2 H. induction H; cbn; congruence. Qed.
