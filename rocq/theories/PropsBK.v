(** C156: the log of the toys parsers is bounded by the calls, so that only brackets make it long. *)
From Verif Require Import PropsI PropsBC PropsBG PropsBH ToysSlow Measure MeasureToys Log LogToys LogCount.
From Verif Require Import Base Core Comb Text Json Calc Toys ToysParse.
Set Implicit Arguments.
Local Open Scope string_scope.
Local Open Scope nat_scope.
Local Open Scope list_scope.

(** A line for at most each call. *)
Theorem C156_calls : forall nd show show_params text,
  length (snd (wt_lines nd show show_params text 0)) <= cnt (snd (mt_lines nd text 0)) /\ length (snd (wt_program nd show show_params text 0)) <= cnt (snd (mt_program nd text 0)).
Proof. intros nd show show_params text. split; [apply b_lines|apply b_program]. Qed.
(** The number of lines, for any text. *)
Theorem C156_lines : forall nd show show_params text, ascii_class nd ->
  length (snd (wt_lines nd show show_params text 0)) <= 512 * 512 * (length text + 1) ^ 2 * 16 ^ brackets text /\
  length (snd (wt_program nd show show_params text 0)) <= 512 * 512 * (length text + 1) ^ 2 * 16 ^ brackets text.
Proof.
  intros nd show show_params text H. destruct (C156_calls nd show show_params text) as [H1 H2]. split; eapply Nat.le_trans; [exact H1|exact (proj2 (C148_lines nd text H))|exact H2|exact (proj2 (C148_program nd text H))].
Qed.
(** Texts of at most [k] brackets. *)
Theorem C156_few_brackets : forall nd k, ascii_class nd ->
  exists c, forall show show_params text, brackets text <= k -> length (snd (wt_lines nd show show_params text 0)) <= c * (length text + 1) ^ 2 /\ length (snd (wt_program nd show show_params text 0)) <= c * (length text + 1) ^ 2.
Proof.
  intros nd k H. destruct (C148_few_brackets nd k H) as [c K]. exists c. intros show show_params text L. destruct (K text L) as [K1 K2]. destruct (C156_calls nd show show_params text) as [H1 H2]. split; eapply Nat.le_trans; eassumption.
Qed.
(** The lines do grow with a power in the brackets. *)
Theorem C156_brackets_needed : forall nd d, ascii_class nd ->
  exists text, brackets text = 3 * d + 4 /\ forall show show_params, 2 ^ S d <= length (snd (wt_program nd show show_params text 0)).
Proof.
  intros nd d H. exists (slow (S d)). split; [|intros show show_params; now apply C153_doubling].
  assert (L : forall d, brackets (ladder d) = 3 * d).
  { clear. induction d as [|d IH]; [reflexivity|]. cbn [ladder]. unfold brackets in *. rewrite filter_app, app_length, IH. cbn. lia. }
  unfold slow, brackets in *. rewrite filter_app, app_length, L. cbn [bs filter existsb]. cbn. lia.
Qed.
(** Lines, calls and brackets of some texts, accepted and rejected. *)
Example C156_case :
  map (fun s => (length (snd (wt_lines nd0 show0 show1 (bs s) 0)), cnt (snd (mt_lines nd0 (bs s) 0)), brackets (bs s))) ["a;"; "a;a;"; "2*3;"; "((a));"; "{{"; "if(a)b;"; "{if(a)if(a)b;else"]
    = [(11, 623, 0); (17, 990, 0); (10, 557, 0); (13, 876, 2); (15, 775, 2); (16, 971, 1); (37, 2209, 3)] /\ ascii_class nd0.
Proof. split; [vm_compute; reflexivity|exact nd0_ok]. Qed.
Print Assumptions C156_calls.
Print Assumptions C156_lines.
Print Assumptions C156_few_brackets.
Print Assumptions C156_brackets_needed.
