(** C146: what is written to the log. *)
From Verif Require Import PropsM.
From Verif Require Import Base Core Comb Closure RepFacts LitFacts Runs Cron CronSpec CronComplete Log LogCron.
Set Implicit Arguments.
Local Open Scope string_scope.
Local Open Scope nat_scope.
Local Open Scope list_scope.

(** ** C146 *)
(** The places where [p] is run one after the other, from a place on up to the first run that is not a success. *)
Inductive visits {A} (p : parser N A) (inp : list N) : nat -> list nat -> Prop :=
| vi_last : forall off, (forall v n, p inp off <> Success v n) -> visits p inp off [off]
| vi_more : forall off v n places, p inp off = Success v n -> 0 < n -> off + n <= length inp -> visits p inp (off + n) places -> visits p inp off (off :: places).
(** The line of a run: none if it did not return. *)
Definition line_of {A} (name : list N) (lv : level) (f : outcome N A -> list N) (o : outcome N A) : list line :=
  match o with Panic => [] | Diverge => [] | _ => [Line lv (name ++ bs " = " ++ f o)] end.

Lemma log_any : forall A (g : wparser A) p name lv f inp off, werases g p ->
  w_log_map g name lv f inp off = (p inp off, snd (g inp off) ++ line_of name lv f (p inp off)).
Proof. intros A g p name lv f inp off H. rewrite <- (H inp off). unfold w_log_map, line_of. destruct (g inp off) as [[v n|e c| |] w]; cbn [fst snd]; now rewrite ?app_nil_r. Qed.
Lemma visits_loop : forall A (g : wparser A) p name lv f, werases g p -> forall inp off places, visits p inp off places -> forall fuel items all w, length inp - off < fuel ->
  snd (w_loop fuel (w_log_map g name lv f) (None : option (wparser unit)) BUnbounded inp off items all w) =
  w ++ flat_map (fun i => snd (g inp i) ++ line_of name lv f (p inp i)) places.
Proof.
  intros A g p name lv f Eg inp off places H. induction H as [off N|off v n places E Hn Hl H IH]; intros fuel items all w L; (destruct fuel as [|fuel]; [lia|]); cbn [w_loop rep_stop].
  - rewrite (log_any name lv f inp off Eg). cbn [flat_map]. destruct (p inp off) as [v n|e c| |] eqn:E; [exfalso; eapply N; reflexivity|..]; cbn [snd]; now rewrite ?app_nil_r, ?app_assoc.
  - rewrite (log_any name lv f inp off Eg), E. rewrite IH by lia. cbn [flat_map]. now rewrite E, <- app_assoc.
Qed.
(** A repetition of a logged parser writes one line for each value it returns and one for the run that ended it, in this order, each after what
    the run itself wrote; if the last run panics, its line is missing and the others are there. *)
Theorem C146_repetition : forall A (g : wparser A) p name lv f inp off places, werases g p -> visits p inp off places ->
  snd (w_many0 (w_log_map g name lv f) inp off) = flat_map (fun i => snd (g inp i) ++ line_of name lv f (p inp i)) places.
Proof.
  intros A g p name lv f inp off places Eg H. unfold w_many0, w_rep. rewrite (log_any name lv f inp off Eg). destruct H as [off N|off v n places E Hn Hl H].
  - cbn [flat_map]. destruct (p inp off) as [v n|e c| |] eqn:E; [exfalso; eapply N; reflexivity|..]; cbn [snd]; now rewrite ?app_nil_r, ?app_assoc.
  - rewrite E. pose proof (@visits_loop A g p name lv f Eg inp (off + n) places H (rep_fuel (rg_end (rg_from 0)) inp off) [v] n (snd (g inp off) ++ line_of name lv f (Success v n))) as K.
    cbn [flat_map]. rewrite E. destruct (w_loop _ _ _ _ _ _ _ _ _) as [d w]. cbn [snd] in *. rewrite K; [reflexivity|]. unfold rep_fuel. cbn [rg_end rg_from bound_count]. lia.
Qed.
(** The values of the successful runs. *)
Definition values {A} (p : parser N A) (inp : list N) (places : list nat) : list A := flat_map (fun i => match p inp i with Success v _ => [v] | _ => [] end) places.
Lemma visits_values : forall A (p : parser N A) inp off places, visits p inp off places -> forall e c, p inp (last places 0) = Failure e c -> forall fuel items all, length inp - off < fuel ->
  exists all', rep_loop fuel p (None : option (parser N unit)) BUnbounded inp off items all = RDone (rev items ++ values p inp places) all'.
Proof.
  intros A p inp off places H. induction H as [off N|off v n places E Hn Hl H IH]; intros e c La fuel items all L; (destruct fuel as [|fuel]; [lia|]); cbn [rep_loop rep_stop].
  - cbn [last] in La. unfold values. cbn [flat_map]. rewrite La. rewrite !app_nil_r. eauto.
  - rewrite E. destruct (IH e c) with (fuel := fuel) (items := v :: items) (all := all + n) as [all' K]; [|lia|].
    + cbn [last] in La. destruct places; [inversion H|exact La].
    + exists all'. rewrite K. unfold values. cbn [rev flat_map]. rewrite E, <- app_assoc. reflexivity.
Qed.
(** With the values: if the last run fails, the repetition returns the values of the others, and there is one line more than values (for a
    parser that writes nothing itself). *)
Theorem C146_lines : forall A (p : parser N A) name lv f inp off places e c, visits p inp off places -> p inp (last places 0) = Failure e c ->
  exists n, fst (w_many0 (w_log_map (w_leaf p) name lv f) inp off) = Success (values p inp places) n /\
  length (snd (w_many0 (w_log_map (w_leaf p) name lv f) inp off)) = S (length (values p inp places)).
Proof.
  intros A p name lv f inp off places e c H La. rewrite (C146_repetition name lv f (we_leaf p) H).
  assert (W : length (flat_map (fun i => snd (w_leaf p inp i) ++ line_of name lv f (p inp i)) places) = S (length (values p inp places))).
  { clear - H La. induction H as [off N|off v n places E Hn Hl H IH].
    - cbn [last] in La. unfold values. cbn [flat_map]. now rewrite La.
    - unfold values in *. cbn [flat_map]. rewrite app_length, IH by (cbn [last] in La; destruct places; [inversion H|exact La]). rewrite E. reflexivity. }
  rewrite W. clear W. rewrite (we_many0 (we_log_map name lv f (fun _ => tt) (we_leaf p)) inp off).
  change (p_many0 (p_log_map p (fun _ => tt)) inp off) with (p_many0 p inp off).
  unfold p_many0, p_repeat_sep, repeat_sep_fuel. destruct H as [off N|off v n places E Hn Hl H].
  - cbn [last] in La. unfold values. cbn [flat_map]. rewrite La. exists 0. split; reflexivity.
  - rewrite E. assert (La' : p inp (last places 0) = Failure e c) by (cbn [last] in La; destruct places; [inversion H|exact La]).
    destruct (@visits_values A p inp (off + n) places H e c La' (rep_fuel (rg_end (rg_from 0)) inp off) [v] n) as [all' K]; [unfold rep_fuel; cbn [rg_end rg_from bound_count]; lia|].
    unfold values in *. cbn [flat_map]. rewrite E. cbn [rg_end rg_from] in *. rewrite K. exists all'. split; reflexivity.
Qed.
(** The digits of "12x", each with two lines, the one of the inner parser first; then the failure at x. *)
Example C146_digits : visits p_elm_digit (bs "12x") 0 [0; 1; 2] /\
  snd (w_many0 (w_log_map (w_log_map (w_leaf p_elm_digit) (bs "a") LDebug (fun _ => [])) (bs "d") LInfo (fun o => match o with Success v _ => [v] | _ => bs "none" end)) (bs "12x") 0) =
  [Line LDebug (bs "a = "); Line LInfo (bs "d = 1"); Line LDebug (bs "a = "); Line LInfo (bs "d = 2"); Line LDebug (bs "a = "); Line LInfo (bs "d = none")].
Proof.
  split; [|vm_compute; reflexivity].
  apply vi_more with (v := chr "1") (n := 1); [reflexivity|lia|cbn; lia|]. apply vi_more with (v := chr "2") (n := 1); [reflexivity|lia|cbn; lia|]. apply vi_last. intros v n K. vm_compute in K. discriminate.
Qed.
(** A closure that panics at the second element: the line of the first is there, no other is. *)
Example C146_panic : w_many0 (w_log_map (w_leaf (p_map_panic p_elm_digit (fun c => if N.eqb c (chr "2") then None else Some c))) (bs "d") LInfo (fun _ => [])) (bs "12x") 0 =
  (Panic, [Line LInfo (bs "d = ")]).
Proof. vm_compute. reflexivity. Qed.

(** The log changes no result: on every text the cron parser with its debug gives what it gives without. *)
Theorem C146_outcome : forall show inp off, fst (wc_cron show inp off) = p_skip_right instruction p_end inp off.
Proof. intros show. apply we_cron. Qed.
(** What the cron parser writes for an accepted text: a debug line for each place of the hours where a single digit is tried ([cron_tries]:
    a lone hour of one digit twice, a bound or a step of one digit once, a star and the missing hour behind a last comma twice), in the order of
    the text; the other fields and hours of two digits write nothing. *)
Theorem C146_cron : forall show t ps, cron_tries t ps -> wc_cron show t 0 = (cron_parse t, map (hour_line show t) ps).
Proof.
  intros show t ps H. pose proof (s_cron show H []) as S. cbn [app length] in S. pose proof (C146_outcome show t 0) as E.
  destruct (wc_cron show t 0) as [o w]. cbn [fst snd] in *. subst o w. f_equal.
Qed.
Theorem C146_cron_accepted : forall show t e n, cron_parse t = Success e n -> exists ps, cron_tries t ps /\ snd (wc_cron show t 0) = map (hour_line show t) ps.
Proof.
  intros show t e n H. assert (C : cron_text t e) by (apply PropsM.C91_accepts_exactly in H; tauto).
  destruct (cron_text_tries C) as [ps K]. exists ps. split; [exact K|]. now rewrite (C146_cron show K).
Qed.
(** 0 5 * * *: the hour is written twice. *)
Example C146_twice : cron_tries (bs "0 5 * * *") [2; 2] /\ forall show, snd (wc_cron show (bs "0 5 * * *") 0) =
  [Line LDebug (bs "hour_digit_4 = " ++ show (Success (ValueExpr 5) 1)); Line LDebug (bs "hour_digit_4 = " ++ show (Success (ValueExpr 5) 1))].
Proof.
  split; [|intros show; vm_compute; reflexivity].
  assert (U : forall lo hi d, (d <= 9 -> lo <= d <= hi -> num_unit lo hi [48 + d] (ValueExpr d))%N) by (intros lo hi d H L; exists d; repeat split; try apply L; now constructor).
  change (bs "0 5 * * *") with (bs "0" ++ bs " " ++ bs "5" ++ bs " " ++ bs "*" ++ bs " " ++ bs "*" ++ bs " " ++ bs "*").
  change [2; 2] with (map (Nat.add (length (bs "0") + 1)) ([0; 0] ++ map (Nat.add (length (bs "5"))) [])).
  eapply tc with (e1 := ValueExpr 0); [|eapply (@tf_list (bs "5") [0; 0] [] []); [apply (@tr_unit (bs "5") (ValueExpr 5)); apply (U 0%N 23%N 5%N); lia|constructor]|apply ft_any|apply ft_any|apply ft_any].
  rewrite <- (app_nil_r (bs "0")). apply ft_one; [|constructor]. constructor. apply (U 0%N 59%N 0%N); lia.
Qed.
(** 0 12-23/05 * * * writes nothing, 0 1-5/2, * * * five lines. *)
Example C146_lines_of : forall show, snd (wc_cron show (bs "0 12-23/05 * * *") 0) = [] /\
  length (snd (wc_cron show (bs "0 1-5/2, * * *") 0)) = 5 /\ length (snd (wc_cron show (bs "0 */3 * * *") 0)) = 3.
Proof. intros show. repeat split; vm_compute; reflexivity. Qed.
Print Assumptions C146_repetition.
Print Assumptions C146_lines.
Print Assumptions C146_outcome.
Print Assumptions C146_cron.
Print Assumptions C146_cron_accepted.
