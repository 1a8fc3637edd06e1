(** How the alternatives of a line (toys/src/parsers.rs 97-100) exclude each other. *)
From Verif Require Import Base Core Comb Closure RepFacts LitFacts ChainFacts Hoare Runs ChainRules Text Agree Json JsonSpec JsonFacts Calc CalcFacts Toys ToysSyntax ToysParse ToysParseSound.
From Coq Require Import ZArith.
Set Implicit Arguments.
Local Open Scope string_scope.
Local Open Scope nat_scope.
Local Open Scope list_scope.

(** *** Splitting a text at the first element outside of a class *)
Definition stop {I} (f : I -> Prop) (l : list I) : Prop := match l with [] => True | c :: _ => ~ f c end.
Lemma split_unique : forall I (f : I -> Prop) a b x y, Forall f a -> Forall f b -> stop f x -> stop f y -> a ++ x = b ++ y -> a = b /\ x = y.
Proof.
  intros I f. induction a as [|c a IH]; intros [|d b] x y Ha Hb Hx Hy E; cbn [app] in E.
  - now split.
  - subst x. inversion Hb; subst. now elim Hx.
  - subst y. inversion Ha; subst. now elim Hy.
  - injection E as <- E. inversion Ha; inversion Hb; subst. destruct (IH b x y) as [-> ->]; auto.
Qed.
Definition wsc (x : N) : Prop := In x [32; 9; 13; 10]%N.
Definition wc (x : N) : Prop := letter_ x \/ digit x.
Lemma wc_not_ws : forall x, wc x -> ~ wsc x.
Proof. intros x H K. unfold wc, letter_, digit in H. cbn in K. lia. Qed.
Lemma word_wc : forall x, word x -> Forall wc x /\ exists c t, x = c :: t /\ letter_ c.
Proof. intros x (c & t & -> & H & Ht). split; [constructor; [now left|exact Ht]|eauto]. Qed.

(** *** The first characters of an expression *)
Lemma word_first : forall f n, word f -> lx f n -> exists c t, n = c :: t /\ c <> chr "=" /\ c <> chr "{" /\ ~ wsc c.
Proof.
  intros f n (c & t & -> & Hc & _) (w & -> & _). exists c; eexists; split; [reflexivity|]. assert (W : wc c) by now left. apply wc_not_ws in W.
  unfold letter_ in Hc; change (chr "=") with 61%N; change (chr "{") with 123%N. split; [lia|split; [lia|assumption]].
Qed.
Lemma lev_first : forall st k e s, lev st k e s -> exists c t, s = c :: t /\ c <> chr "=" /\ c <> chr "{" /\ ~ wsc c.
Proof.
  intros st k e s H. induction H.
  all: try (match goal with H : lx (bs ?o) ?u |- exists c t, ?u ++ _ = _ /\ _ => destruct H as (w & -> & _); eexists; eexists; split; [reflexivity|]; cbv; intuition congruence end).
  all: try (match goal with H : word ?f, H' : lx ?f ?n |- _ => destruct (word_first H H') as (cc & tt & -> & K); exists cc; eexists; split; [reflexivity|exact K] end).
  - destruct H as (ds & [D1 D2] & [[-> _]|[-> _]] & _), H0 as (w & -> & _).
    + destruct ds as [|c ds]; [easy|]. inversion D1; subst. exists c; eexists; split; [reflexivity|]. assert (wc c) by now right. pose proof (@wc_not_ws c ltac:(assumption)).
      unfold digit in *. change (chr "=") with 61%N; change (chr "{") with 123%N. split; [lia|split; [lia|assumption]].
    + eexists; eexists; split; [reflexivity|]. cbv. intuition congruence.
  - destruct H0 as (w & -> & _). assert (exists t', t = 34%N :: t') as [t' ->]. { unfold g_string in H. destruct H as (u & _ & -> & _). eexists. reflexivity. }
    eexists; eexists; split; [reflexivity|]. cbv. intuition congruence.
  - destruct H as (w & -> & _). destruct b; (eexists; eexists; split; [reflexivity|]); cbv; intuition congruence.
  - exact IHlev.
  - destruct IHlev1 as (c & t' & -> & K). exists c; eexists; split; [reflexivity|exact K].
Qed.

(** After the first word of an expression and the white space behind it: nothing, or a character of no word; two equality signs if one. *)
Definition follows (r : list N) : Prop := exists c r', r = c :: r' /\ ~ wc c /\ ~ wsc c /\ (c = chr "=" -> begins (bs "=") r').
Lemma follows_app : forall r s, follows r -> follows (r ++ s).
Proof. intros r s (c & r' & -> & H1 & H2 & H3). exists c, (r' ++ s). split; [reflexivity|]. split; [exact H1|]. split; [exact H2|]. intros E. destruct (H3 E) as [t ->]. now exists (t ++ s). Qed.
Lemma op_follows : forall o, follows (op_text o).
Proof.
  assert (K : forall x, ~ (48 <= x <= 57)%N -> ~ (65 <= x <= 90)%N -> ~ (97 <= x <= 122)%N -> x <> 95%N -> ~ wc x).
  { intros x H1 H2 H3 H4 [H|H]; unfold letter_, digit in H; lia. }
  intros o. destruct o; cbn; (eexists; eexists; split; [reflexivity|]; split; [apply K; cbv; intuition congruence|]; split; [cbv; intuition congruence|]; intros E;
    first [discriminate E|now eexists]).
Qed.
Lemma lev_word : forall st k e s, lev st k e s -> match s with c :: _ => letter_ c | [] => False end -> exists w b r, s = w ++ b ++ r /\ word w /\ ws b /\ (r = [] \/ follows r).
Proof.
  assert (P1 : follows (bs "(")) by (exists (chr "("), []; split; [reflexivity|]; split; [unfold wc, letter_, digit; cbv; intuition congruence|]; split; [cbv; intuition congruence|discriminate]).
  assert (P2 : follows (bs "[")) by (exists (chr "["), []; split; [reflexivity|]; split; [unfold wc, letter_, digit; cbv; intuition congruence|]; split; [cbv; intuition congruence|discriminate]).
  assert (NL : forall x, letter_ x -> (65 <= x <= 90 \/ 97 <= x <= 122 \/ x = 95)%N) by auto.
  intros st k e s H. induction H; intros Hc.
  - destruct H as (w & -> & _). cbn in Hc. exfalso. cbv in Hc. intuition congruence.
  - exfalso. destruct H as (ds & [D1 D2] & [[-> _]|[-> _]] & _), H0 as (w & -> & _).
    + destruct ds as [|c ds]; [easy|]. inversion D1; subst. cbn in Hc. unfold digit, letter_ in *. lia.
    + cbn in Hc. cbv in Hc. intuition congruence.
  - exfalso. destruct H as (u & _ & -> & _), H0 as (w & -> & _). cbn in Hc. cbv in Hc. intuition congruence.
  - destruct H0 as (b & -> & Hb), H1 as (b' & -> & Hb'). exists f, b, ((bs "(" ++ b') ++ s ++ c). split; [now rewrite <- !app_assoc|]. split; [assumption|]. split; [assumption|]. right.
    now apply follows_app, follows_app.
  - destruct H0 as (b & -> & Hb), H1 as (b' & -> & Hb'). exists f, b, ((bs "[" ++ b') ++ s ++ c). split; [now rewrite <- !app_assoc|]. split; [assumption|]. split; [assumption|]. right.
    now apply follows_app, follows_app.
  - exfalso. destruct H as (w & -> & _). cbn in Hc. cbv in Hc. intuition congruence.
  - destruct H as (w & -> & Hw). exists (bool_text b), w, []. split; [now rewrite app_nil_r|]. split; [|split; [exact Hw|now left]].
    destruct b; (eexists; eexists; split; [reflexivity|]; split; [cbv; intuition congruence|]); repeat constructor; cbv; intuition congruence.
  - destruct H1 as (w & -> & Hw). exists x, w, []. split; [now rewrite app_nil_r|]. split; [assumption|]. split; [exact Hw|now left].
  - now apply IHlev.
  - destruct IHlev1 as (w & b & q & -> & Hw & Hb & Hq).
    { destruct s as [|c s']; [|exact Hc]. now apply lev_ne in H. }
    exists w, b, (q ++ t ++ u). split; [now rewrite <- !app_assoc|]. split; [assumption|]. split; [assumption|]. right. destruct Hq as [->|Hq]; [|now apply follows_app].
    destruct H1 as (b' & -> & _). cbn [app]. rewrite <- app_assoc. apply follows_app, op_follows.
Qed.

Section Apart.
Variable nd : N -> bool.
Hypothesis nd_ascii : forall x, (x < 128)%N -> (nd x = true <-> digit x).
Variable inp : list N.
Lemma text_at : forall off n, off <= length inp -> exists r, skipn off inp = firstn n (skipn off inp) ++ r.
Proof. intros off n _. exists (skipn n (skipn off inp)). symmetry. apply firstn_skipn. Qed.
(** The primary of the expressions of a line. *)
Lemma primary_text : forall off v n, off <= length inp -> primary_of nd (expression_fuel nd (length inp)) inp off = Success v n ->
  exists b c t, skipn off inp = b ++ c :: t /\ ws b /\ c <> chr "=" /\ c <> chr "{" /\ ~ wsc c.
Proof.
  intros off v n Ho E. rewrite (ag_primary_of nd (@ag_expression nd (length inp) (length inp) (le_n _))) in E by lia.
  pose proof (@h_primary_of nd nd_ascii _ (@h_expression_safe nd nd_ascii (length inp))) as H. destruct (h_success H Ho E) as [L (b & t & Et & Hb & _ & Hl)].
  destruct (lev_first Hl) as (c & t' & -> & K). destruct (text_at n Ho) as [r Er]. exists b, c, (t' ++ r). split; [rewrite Er, Et, <- app_assoc; reflexivity|]. split; [exact Hb|exact K].
Qed.
Definition assign_head : parser N name := p_skip_left t_space (p_skip_right ident (t_tag (bs "="))).
Lemma assign_head_text : forall off v n, off <= length inp -> assign_head inp off = Success v n ->
  exists b x b' w r, skipn off inp = b ++ x ++ b' ++ bs "=" ++ w ++ r /\ ws b /\ word x /\ ws b' /\ ws w /\ n = length (b ++ x ++ b' ++ bs "=" ++ w) /\ skipn (off + n) inp = r.
Proof.
  intros off v n Ho E. assert (H : hoare assign_head (fun _ s => exists b x b' w, s = b ++ x ++ b' ++ bs "=" ++ w /\ ws b /\ word x /\ ws b' /\ ws w)).
  { eapply h_skip_left; [apply h_tspace|eapply h_skip_right with (R := fun x s => exists b b' w, s = b ++ x ++ b' ++ bs "=" ++ w /\ ws b /\ word x /\ ws b' /\ ws w); [apply h_ident|apply h_ttag|]|].
    - intros x _ s t [Hx (b & u & -> & Hb & (b' & -> & Hb'))] (b2 & u2 & -> & Hb2 & (w & -> & Hw)). exists b, (b' ++ b2), w. split; [now rewrite <- !app_assoc|]. split; [exact Hb|].
      split; [exact Hx|]. split; [now apply Forall_app|exact Hw].
    - intros o x s t Hs (b & b' & w & -> & Hb & Hx & Hb' & Hw). exists (s ++ b), x, b', w. split; [now rewrite <- !app_assoc|]. split; [now apply Forall_app|auto]. }
  destruct (h_success H Ho E) as [L (b & x & b' & w & Et & Hb & Hx & Hb' & Hw)]. exists b, x, b', w, (skipn n (skipn off inp)).
  split; [|split; [exact Hb|split; [exact Hx|split; [exact Hb'|split; [exact Hw|split]]]]].
  - rewrite <- (firstn_skipn n (skipn off inp)) at 1. rewrite Et, <- !app_assoc. reflexivity.
  - rewrite <- Et, firstn_length, skipn_length. lia.
  - symmetry. apply skipn_skipn'.
Qed.
Lemma ws_stop : forall (x r : list N), word x -> stop wsc (x ++ r).
Proof. intros x r Hx. destruct (word_wc Hx) as [H (c & t & -> & _)]. inversion H; subst. cbn. now apply wc_not_ws. Qed.
Lemma ws_then : forall b c (r : list N), ws b -> ~ wc c -> stop wc (b ++ c :: r).
Proof.
  intros [|d b] c r Hb Hc; cbn; [exact Hc|]. inversion Hb; subst. intros K. now apply wc_not_ws in K.
Qed.
(** Where an expression and a semicolon stand and an assignment could begin, the text goes on with a second equality sign. *)
Lemma line_or_assign : forall off v n x m, off <= length inp -> expression_line nd inp off = Success v n -> assign_head inp off = Success x m ->
  m < n /\ exists r, skipn (off + m) inp = chr "=" :: r.
Proof.
  intros off v n xv m Ho E1 E2. destruct (assign_head_text Ho E2) as (b & x & b' & w & r & T2 & Hb & Hx & Hb' & Hw & Hm & Hr).
  assert (H : hoare (expression_line nd) (fun e => led (fun u => exists s t, u = s ++ t /\ glev 4 e s /\ lx (bs ";") t))).
  { unfold expression_line. apply h_name, h_attempt. eapply h_weaken; [eapply h_right_led; [apply (@h_expr nd nd_ascii)|apply h_ttag|intros; now apply lev_ws]|]. auto. }
  destruct (h_success H Ho E1) as [L (a0 & u & Et & Ha & s & t & -> & Hs & (b3 & -> & Hb3))]. destruct (text_at n Ho) as [q Eq]. rewrite Et in Eq.
  destruct (lev_first Hs) as (c0 & s0 & Es0 & _ & _ & N0).
  assert (S : a0 = b /\ (s ++ bs ";" ++ b3) ++ q = x ++ b' ++ bs "=" ++ w ++ r).
  { apply split_unique with (f := wsc); [exact Ha|exact Hb|rewrite Es0; exact N0|now apply ws_stop|]. rewrite <- T2, Eq, <- !app_assoc. reflexivity. }
  destruct S as [-> S]. destruct (word_wc Hx) as [Wx (cx & tx & Ex & Lx)].
  assert (Hc : match s with c :: _ => letter_ c | [] => False end).
  { rewrite Es0, Ex in S. cbn [app] in S. injection S as -> _. now rewrite Es0. }
  destruct (lev_word Hs Hc) as (y & d & z & -> & Hy & Hd & Hz). destruct (word_wc Hy) as [Wy _].
  assert (F : follows ((z ++ bs ";" ++ b3) ++ q)).
  { destruct Hz as [->|Hz]; [|rewrite <- app_assoc; now apply follows_app]. exists (chr ";"), (b3 ++ q). split; [reflexivity|].
    split; [unfold wc, letter_, digit; cbv; intuition congruence|]. split; [cbv; intuition congruence|discriminate]. }
  pose proof F as (c & r' & Ez & K1 & K2 & K3).
  assert (S2 : y = x /\ d ++ c :: r' = b' ++ bs "=" ++ w ++ r).
  { apply split_unique with (f := wc); [exact Wy|exact Wx|now apply ws_then|apply ws_then; [exact Hb'|]|].
    - unfold wc, letter_, digit; cbv; intuition congruence.
    - rewrite <- S, <- Ez, <- !app_assoc. reflexivity. }
  destruct S2 as [-> S2]. assert (S3 : d = b' /\ c :: r' = bs "=" ++ w ++ r).
  { apply split_unique with (f := wsc); [exact Hd|exact Hb'|exact K2| |exact S2]. cbv. intuition congruence. }
  destruct S3 as [-> S3]. injection S3 as Ec Er. destruct (K3 Ec) as [r2 Er2]. assert (W0 : w = []).
  { destruct w as [|c2 w]; [reflexivity|]. exfalso. rewrite Er2 in Er. cbn in Er. injection Er as <- _. inversion Hw; subst. match goal with K : In _ _ |- _ => cbv in K; intuition congruence end. }
  subst w. cbn [app] in Er. split.
  - destruct Hz as [->|(c2 & r3 & -> & _)].
    + cbn in Ez. injection Ez as E _. rewrite Ec in E. discriminate.
    + assert (Ln : length (firstn n (skipn off inp)) <= n) by apply firstn_le_length. rewrite Et in Ln. rewrite !app_length in Ln, Hm. cbn [length bs list_ascii_of_string map] in Ln, Hm. cbn in Ln, Hm. lia.
  - rewrite Hr, <- Er, Er2. now exists r2.
Qed.
Lemma space_before_line : forall off u m v n, off <= length inp -> t_space inp off = Success u m -> expression_line nd inp off = Success v n -> m <= n.
Proof.
  intros off ux m v n Ho E2 E1. destruct (h_success h_tspace Ho E2) as [Lm Hm].
  assert (H : hoare (expression_line nd) (fun e => led (fun u => exists s t, u = s ++ t /\ glev 4 e s /\ lx (bs ";") t))).
  { unfold expression_line. apply h_name, h_attempt. eapply h_weaken; [eapply h_right_led; [apply (@h_expr nd nd_ascii)|apply h_ttag|intros; now apply lev_ws]|]. auto. }
  destruct (h_success H Ho E1) as [L (a0 & u & Et & Ha & s & t & -> & Hs & _)]. destruct (lev_first Hs) as (c0 & s0 & -> & _ & _ & N0).
  destruct (Nat.le_gt_cases m n) as [|G]; [assumption|exfalso]. assert (K : firstn n (skipn off inp) = firstn n (firstn m (skipn off inp))) by (rewrite firstn_firstn; f_equal; lia).
  rewrite Et in K. rewrite <- (firstn_skipn n (firstn m (skipn off inp))), <- K in Hm. apply Forall_app in Hm. destruct Hm as [Hm _]. apply Forall_app in Hm. destruct Hm as [_ Hm].
  cbn [app] in Hm. inversion Hm; subst. now apply N0.
Qed.
(** Where a block stands, no assignment and no expression begins. *)
Lemma brace_text : forall off v n, off <= length inp -> p_skip_left t_space lbrace inp off = Success v n -> exists b t, skipn off inp = b ++ chr "{" :: t /\ ws b.
Proof.
  intros off v n Ho E. assert (H : hoare (p_skip_left t_space lbrace) (fun _ => ltok (bs "{"))).
  { eapply h_skip_left; [apply h_tspace|apply h_ttag|]. intros o x s t Hs (b & u & -> & Hb & Hu). exists (s ++ b), u. split; [now rewrite <- app_assoc|]. split; [now apply Forall_app|exact Hu]. }
  destruct (h_success H Ho E) as [L (b & u & Et & Hb & (w & -> & _))].
  destruct (text_at n Ho) as [q Eq]. rewrite Et in Eq. exists b, (w ++ q). split; [rewrite Eq, <- !app_assoc; reflexivity|exact Hb].
Qed.
Lemma brace_not_ws : ~ wsc (chr "{").
Proof. cbv. intuition congruence. Qed.
Lemma brace_no_primary : forall off v n w m, off <= length inp -> p_skip_left t_space lbrace inp off = Success v n ->
  primary_of nd (expression_fuel nd (length inp)) inp off = Success w m -> False.
Proof.
  intros off v n w m Ho E1 E2. destruct (brace_text Ho E1) as (b & t & T1 & Hb). destruct (primary_text Ho E2) as (b' & c & t' & T2 & Hb' & _ & N1 & N2).
  rewrite T1 in T2. apply split_unique with (f := wsc) in T2; [|exact Hb|exact Hb'|exact brace_not_ws|exact N2]. destruct T2 as [_ T2]. injection T2 as E _. now subst c.
Qed.
Lemma brace_no_assign : forall off v n w m, off <= length inp -> p_skip_left t_space lbrace inp off = Success v n -> assign_head inp off = Success w m -> False.
Proof.
  intros off v n w m Ho E1 E2. destruct (brace_text Ho E1) as (b & t & T1 & Hb). destruct (assign_head_text Ho E2) as (b' & x & b2 & z & r & T2 & Hb' & Hx & _).
  rewrite T1 in T2. apply split_unique with (f := wsc) in T2; [|exact Hb|exact Hb'|exact brace_not_ws|now apply ws_stop]. destruct T2 as [_ T2].
  destruct Hx as (c & u & -> & Hc & _). injection T2 as <- _. revert Hc. cbv. intuition congruence.
Qed.
Lemma equals_no_primary : forall off r w m, off <= length inp -> skipn off inp = chr "=" :: r -> primary_of nd (expression_fuel nd (length inp)) inp off = Success w m -> False.
Proof.
  intros off r w m Ho E1 E2. destruct (primary_text Ho E2) as (b' & c & t' & T2 & Hb' & N1 & _ & N2). rewrite E1 in T2.
  destruct b' as [|d b']; [injection T2 as E _; now elim N1|]. injection T2 as <- _. inversion Hb'; subst. match goal with K : In _ _ |- _ => cbv in K; intuition congruence end.
Qed.
Lemma space_inside : forall off v n, t_space inp off = Success v n -> off <= length inp.
Proof.
  intros off v n E. destruct (Nat.le_gt_cases off (length inp)) as [|L]; [assumption|]. exfalso. unfold t_space, p_discard, p_many0, p_repeat_sep, repeat_sep_fuel, p_elm_of, p_elm_of_set, p_map, p_elm_ref_of in E.
  assert (N : ps_input inp off = None) by (unfold ps_input, slice_from; destruct (Nat.leb_spec off (length inp)); [lia|reflexivity]).
  rewrite N in E. discriminate.
Qed.
End Apart.
