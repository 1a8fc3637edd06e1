(** What the toys parsers accept is spelled by the grammar of ToysSyntax.v; every run returns. *)
From Verif Require Import Base Core Comb Closure RepFacts LitFacts ChainFacts Hoare Runs ChainRules Text Agree Json JsonSpec JsonFacts Calc CalcFacts Toys ToysSyntax ToysParse.
From Coq Require Import ZArith.
Set Implicit Arguments.
Local Open Scope string_scope.
Local Open Scope nat_scope.
Local Open Scope list_scope.

(** ** White space and tokens *)
Lemma h_tspace : hoare t_space (fun _ s => ws s).
Proof. exact h_space. Qed.
Lemma lx_ws : forall t s a, lx t s -> ws a -> lx t (s ++ a).
Proof. intros t s a (w & -> & Hw) Ha. exists (w ++ a). split; [now rewrite <- app_assoc|now apply ws_app]. Qed.
Lemma lx_tok : forall t w, ws w -> lx t (t ++ w).
Proof. intros t w H. now exists w. Qed.
Lemma ws_nil : ws [].
Proof. constructor. Qed.
Lemma h_spaced : forall A (p : parser N A) Q (R : A -> list N -> Prop), hoare p Q ->
  (forall v a s b, ws a -> ws b -> Q v s -> R v (a ++ s ++ b)) -> hoare (spaced p) R.
Proof.
  intros A p Q R H HR. unfold spaced. eapply h_skip_right with (P := fun v s => exists a t, s = a ++ t /\ ws a /\ Q v t); [|apply h_tspace|].
  - eapply h_skip_left; [apply h_tspace|exact H|]. cbv beta. intros _ v s t Hs Ht. now exists s, t.
  - cbv beta. intros v _ s t (a & u & -> & Ha & Hu) Ht. rewrite <- app_assoc. now apply HR.
Qed.
(** White space before something. *)
Definition led (G : list N -> Prop) (s : list N) : Prop := exists a t, s = a ++ t /\ ws a /\ G t.
Definition ltok (t : list N) : list N -> Prop := led (lx t).
Lemma led_0 : forall (G : list N -> Prop) s, G s -> led G s.
Proof. intros G s H. exists [], s. repeat split; [apply ws_nil|exact H]. Qed.
Lemma led_ws : forall G a s, ws a -> led G s -> led G (a ++ s).
Proof. intros G a s Ha (b & t & -> & Hb & Ht). exists (a ++ b), t. rewrite <- app_assoc. repeat split; [now apply ws_app|exact Ht]. Qed.
Lemma h_ttag : forall t, hoare (t_tag t) (fun _ s => ltok t s).
Proof.
  intros t. unfold t_tag. eapply h_spaced; [apply h_tag with (R := fun _ s => s = t); reflexivity|]. cbv beta.
  intros v a s b Ha Hb ->. exists a, (t ++ b). repeat split; [exact Ha|now apply lx_tok].
Qed.
Lemma h_tsym : forall c, hoare (t_sym c) (fun v s => v = c /\ ltok [c] s).
Proof.
  intros c. unfold t_sym. eapply h_spaced; [apply h_elm_ref with (R := fun v s => v = c /\ s = [c]); now split|]. cbv beta.
  intros v a s b Ha Hb [-> ->]. split; [reflexivity|]. exists a, ([c] ++ b). repeat split; [exact Ha|now apply lx_tok].
Qed.
Lemma tag_out : forall t (inp : list N) off v n, length inp < off -> p_tag t inp off <> Success v n.
Proof.
  intros t inp off v n H. unfold p_tag, p_tag_by, ps_input, slice_from. destruct (Nat.leb_spec off (length inp)); [lia|]. discriminate.
Qed.
Lemma consumes_tag : forall c t, consumes (p_tag (c :: t)).
Proof.
  intros c t. eapply hoare_consumes; [apply h_tag with (R := fun _ s => s = c :: t); reflexivity|intros v s ->; discriminate|].
  intros inp off Ho v n. now apply tag_out.
Qed.
Lemma consumes_skip_left1 : forall A B (p : parser N A) (q : parser N B), consumes p -> bounded q -> consumes (p_skip_left p q).
Proof.
  intros A B p q Hp Hq inp off v n E. unfold p_skip_left in E. destruct (p inp off) as [a k|e c| |] eqn:E1; try discriminate.
  destruct (q inp (off + k)) as [b m|e c| |] eqn:E2; try discriminate. inv E. apply Hp in E1. apply Hq in E2; lia.
Qed.
Lemma consumes_skip_left2 : forall A B (p : parser N A) (q : parser N B), consumes q -> consumes (p_skip_left p q).
Proof.
  intros A B p q Hq inp off v n E. unfold p_skip_left in E. destruct (p inp off) as [a k|e c| |] eqn:E1; try discriminate.
  destruct (q inp (off + k)) as [b m|e c| |] eqn:E2; try discriminate. inv E. apply Hq in E2. lia.
Qed.
Lemma consumes_skip_right1 : forall A B (p : parser N A) (q : parser N B), consumes p -> bounded q -> consumes (p_skip_right p q).
Proof.
  intros A B p q Hp Hq inp off v n E. unfold p_skip_right in E. destruct (p inp off) as [a k|e c| |] eqn:E1; try discriminate.
  destruct (q inp (off + k)) as [b m|e c| |] eqn:E2; try discriminate. inv E. apply Hp in E1. apply Hq in E2; lia.
Qed.
Lemma consumes_and1 : forall A B (p : parser N A) (q : parser N B), consumes p -> bounded q -> consumes (p_and p q).
Proof.
  intros A B p q Hp Hq inp off v n E. unfold p_and in E. destruct (p inp off) as [a k|e c| |] eqn:E1; try discriminate.
  destruct (q inp (off + k)) as [b m|e c| |] eqn:E2; try discriminate. inv E. apply Hp in E1. apply Hq in E2; lia.
Qed.
Lemma consumes_ttag : forall c t, consumes (t_tag (c :: t)).
Proof. intros c t. apply consumes_skip_right1; [apply consumes_skip_left2, consumes_tag|eapply h_bounded, h_tspace]. Qed.

(** ** Words *)
Lemma start_iff : forall x, ident_start x = true <-> letter_ x.
Proof.
  intros x. unfold ident_start, in_range, letter_. change (chr "_") with 95%N.
  rewrite !orb_true_iff, !andb_true_iff, !N.leb_le, N.eqb_eq. tauto.
Qed.
Lemma ichar_iff : forall x, ident_char x = true <-> letter_ x \/ digit x.
Proof.
  intros x. unfold ident_char. rewrite orb_true_iff, start_iff. unfold in_range, digit. rewrite andb_true_iff, !N.leb_le. reflexivity.
Qed.
Lemma word_ascii : forall x, word x -> forall y, In y x -> (y < 128)%N.
Proof.
  intros x (c & t & -> & Hc & Ht) y Hy. rewrite Forall_forall in Ht. destruct Hy as [<-|Hy]; [unfold letter_ in Hc; lia|].
  specialize (Ht y Hy). unfold letter_, digit in Ht. lia.
Qed.
Lemma h_word : hoare (p_regex find_ident) (fun x s => s = x /\ word x).
Proof.
  intros inp off Ho. unfold p_regex. rewrite ps_input_ok by exact Ho. unfold find_ident.
  destruct (skipn off inp) as [|x t] eqn:E; [exact I|]. destruct (ident_start x) eqn:Ex; [|exact I].
  destruct (span ident_char t) as [a b] eqn:Es. apply span_spec in Es. destruct Es as (-> & Ha & Hb). cbn [fst].
  assert (W : word (x :: a)).
  { exists x, a. split; [reflexivity|]. split; [now apply start_iff|]. apply Forall_forall. intros y Hy. rewrite forallb_forall in Ha. now apply ichar_iff, Ha. }
  rewrite (utf8_len_ascii (x :: a) (word_ascii W)). split.
  - pose proof (skipn_length off inp) as L. rewrite E in L. cbn [List.length] in *. rewrite app_length in L. lia.
  - split; [|exact W]. change (x :: a ++ b) with ((x :: a) ++ b). rewrite firstn_app, firstn_all, Nat.sub_diag. cbn [firstn]. now rewrite app_nil_r.
Qed.
Lemma h_ident : hoare ident (fun x s => word x /\ ltok x s).
Proof.
  unfold ident. eapply h_spaced; [apply h_word|]. cbv beta. intros x a s b Ha Hb [-> Hx]. split; [exact Hx|].
  exists a, (x ++ b). repeat split; [exact Ha|now apply lx_tok].
Qed.
Lemma word_ne : forall x, word x -> x <> [].
Proof. intros x (c & t & -> & _). discriminate. Qed.
Lemma lx_ne : forall t s, lx t s -> t <> [] -> s <> [].
Proof. intros t s (w & -> & _) H. destruct t; [congruence|discriminate]. Qed.

(** ** The grammar *)
Notation glev := (lev false).
Notation gstm := (stm false).
Lemma lev_ne : forall st k e s, lev st k e s -> s <> [].
Proof.
  intros st k e s H. induction H as [e o s c (w & -> & _) H IH Hc|z t s Hz (w & -> & _)|v t s (is & _ & -> & _) (w & -> & _)
    |f n o s c es Hf (w & -> & _) Ho Ha Hc|f n o s c es Hf (w & -> & _) Ho Ha Hc|o s c es (w & -> & _) Ha Hc|b s (w & -> & _)|x s Hx Hp (w & -> & _)
    |k e s H IH Hk|k o l r s t u Hl IHl Ho Ht Hr IHr]; try discriminate.
  - destruct Hz as (ds & [_ Hd] & [[-> _]|[-> _]] & _); [destruct ds; [congruence|discriminate]|discriminate].
  - apply word_ne in Hf. destruct f; [congruence|discriminate].
  - apply word_ne in Hf. destruct f; [congruence|discriminate].
  - destruct b; discriminate.
  - apply word_ne in Hx. destruct x; [congruence|discriminate].
  - exact IH.
  - destruct s; [congruence|discriminate].
Qed.
Lemma lev_ws : forall st k e s, lev st k e s -> forall a, ws a -> lev st k e (s ++ a).
Proof.
  intros st k e s H. induction H; intros a0 Ha0.
  - rewrite <- !app_assoc. apply l_paren; try assumption. now apply lx_ws.
  - eapply l_int; [eassumption|]. now apply lx_ws.
  - eapply l_str; [eassumption|]. now apply lx_ws.
  - rewrite <- !app_assoc. apply l_call; try assumption. now apply lx_ws.
  - rewrite <- !app_assoc. apply l_labelled; try assumption. now apply lx_ws.
  - rewrite <- !app_assoc. apply l_array; try assumption. now apply lx_ws.
  - apply l_bool. now apply lx_ws.
  - apply l_sym; try assumption. now apply lx_ws.
  - apply l_up; [|assumption]. now apply IHlev.
  - rewrite <- !app_assoc. apply l_bin; try assumption. now apply IHlev2.
Qed.
Lemma stm_ws : forall st o e s, stm st o e s -> forall a, ws a -> stm st o e (s ++ a).
Proof.
  intros st o e s H. induction H; intros a0 Ha0; rewrite <- ?app_assoc; try (econstructor; try eassumption; now apply lx_ws).
  - apply s_while; try assumption. now apply IHstm.
  - apply s_for; try assumption. now apply IHstm.
  - eapply s_if; try eassumption. now apply IHstm.
  - eapply s_ifelse; try eassumption. now apply IHstm2.
Qed.

(** An expression, and white space before it unless it starts with a string. *)
Definition xlev (k : nat) (e : expr) (s : list N) : Prop :=
  exists a t, s = a ++ t /\ ws a /\ (a <> [] -> ~ begins [34%N] t) /\ glev k e t.
Lemma xlev_ne : forall k e s, xlev k e s -> s <> [].
Proof. intros k e s (a & t & -> & _ & _ & H). apply lev_ne in H. destruct a; [exact H|discriminate]. Qed.
Lemma xlev_led : forall k e s, xlev k e s -> led (glev k e) s.
Proof. intros k e s (a & t & -> & Ha & _ & H). now exists a, t. Qed.
Lemma begins_app : forall c s t, s <> [] -> begins [c] (s ++ t) <-> begins [c] s.
Proof. intros c [|x s] t H; [congruence|]. split; intros [r E]; cbn in E; inv E; now eexists. Qed.
Lemma xlev_not : forall k e a t, ws a -> ~ begins [34%N] t -> glev k e t -> xlev k e (a ++ t).
Proof. intros k e a t Ha Hb H. exists a, t. auto. Qed.

(** ** Soundness of the parts *)
Section Sound.
Variable nd : N -> bool.
(** The class \d restricted to ASCII is 0-9. *)
Hypothesis nd_ascii : forall x, (x < 128)%N -> (nd x = true <-> digit x).

Lemma h_int : hoare (p_map_res (p_regex (find_integer nd)) parse_i64) (fun z s => int_text z s).
Proof.
  intros inp off Ho. unfold p_map_res, p_regex. rewrite ps_input_ok by exact Ho.
  destruct (find_integer nd (skipn off inp)) as [m|] eqn:E; [|exact I].
  destruct (parse_i64 m) as [z|u] eqn:Ed; [|exact I].
  assert (G : (exists t, skipn off inp = m ++ t) /\ (forall x, In x m -> (x < 128)%N) /\ int_text z m).
  { unfold parse_i64 in Ed.
    assert (B : forall zz, in_i64 zz = true -> (- 2 ^ 63 <= zz <= 2 ^ 63 - 1)%Z).
    { intros zz Hz. unfold in_i64, i64_min, i64_max in Hz. apply andb_true_iff in Hz. rewrite !Z.leb_le in Hz. exact Hz. }
    assert (DG : forall ds, forallb is_ascii_digit ds = true -> Forall digit ds).
    { intros ds F. apply Forall_forall. intros y Hy. rewrite forallb_forall in F. now apply dig_iff, F. }
    assert (AS : forall ds, Forall digit ds -> forall y, In y ds -> (y < 128)%N).
    { intros ds F y Hy. rewrite Forall_forall in F. specialize (F y Hy). unfold digit in F. lia. }
    unfold find_integer in E. destruct (skipn off inp) as [|x t]; [discriminate|].
    destruct (N.eqb_spec x (chr "-")) as [->|Hx].
    - destruct (span nd t) as [ds r] eqn:Es. apply span_spec in Es. destruct Es as (-> & Hd & _). cbn [fst] in E.
      destruct ds as [|d ds]; [discriminate|]. inv E. rewrite N.eqb_refl in Ed.
      destruct (forallb is_ascii_digit (d :: ds)) eqn:F; [|discriminate]. destruct (in_i64 _) eqn:Fi in Ed; [|discriminate]. inv Ed.
      apply DG in F. split; [now exists r|]. split; [intros y [<-|Hy]; [reflexivity|exact (AS _ F _ Hy)]|].
      exists (d :: ds). split; [split; [exact F|discriminate]|]. split; [right; now split|now apply B].
    - destruct (span nd (x :: t)) as [ds r] eqn:Es. apply span_spec in Es. destruct Es as (Et & Hd & _). cbn [fst] in E.
      destruct ds as [|d ds]; [discriminate|]. inv E. inversion Et as [[Ex Et']]. subst x.
      destruct (N.eqb_spec d (chr "-")) as [|_]; [contradiction|].
      destruct (N.eqb_spec d (chr "+")) as [->|_].
      { cbn [forallb] in Hd. apply andb_true_iff in Hd. destruct Hd as [Hd _]. apply nd_ascii in Hd; [|reflexivity]. unfold digit in Hd. cbn in Hd. lia. }
      destruct (forallb is_ascii_digit (d :: ds)) eqn:F; [|discriminate]. destruct (in_i64 _) eqn:Fi in Ed; [|discriminate]. inv Ed.
      apply DG in F. split; [now exists r|]. split; [exact (AS _ F)|].
      exists (d :: ds). split; [split; [exact F|discriminate]|]. split; [left; now split|now apply B]. }
  destruct G as ((t & Et) & A & G). rewrite (utf8_len_ascii m A), Et.
  split; [|rewrite firstn_app, firstn_all, Nat.sub_diag, app_nil_r; exact G].
  pose proof (skipn_length off inp) as L. rewrite Et, app_length in L. lia.
Qed.
Lemma int_not_quote : forall z t r, int_text z t -> ~ begins [34%N] (t ++ r).
Proof.
  intros z t r (ds & [Hd Hn] & H & _) [u E]. destruct ds as [|d ds]; [congruence|]. inversion Hd as [|? ? Hx _]. subst.
  destruct H as [[-> _]|[-> _]]; cbn in E; inv E. unfold digit in Hx. lia.
Qed.
Lemma word_not_quote : forall x r, word x -> ~ begins [34%N] (x ++ r).
Proof. intros x r (c & t & -> & Hc & _) [u E]. cbn in E. inv E. unfold letter_ in Hc. lia. Qed.
Lemma tok_not_quote : forall t s r, lx t s -> match t with [] => False | c :: _ => c <> 34%N end -> ~ begins [34%N] (s ++ r).
Proof. intros [|c t] s r (w & -> & _) H [u E]; [destruct H|]. cbn in E. inv E. congruence. Qed.

Lemma h_integer : hoare (t_integer nd) (xlev 0).
Proof.
  unfold t_integer. apply h_name. eapply h_spaced; [eapply h_map with (R := fun e s => exists z, e = EInt z /\ int_text z s); [apply h_int|intros z s Hz; now exists z]|].
  cbv beta. intros e a s b Ha Hb (z & -> & Hz). apply xlev_not; [exact Ha|now apply int_not_quote with (z := z)|]. eapply l_int; [exact Hz|now apply lx_tok].
Qed.
Lemma h_bool : hoare bool_literal (xlev 0).
Proof.
  unfold bool_literal. apply h_name. eapply h_spaced.
  - eapply h_map_panic with (Q := fun v s => s = v /\ (v = bs "true" \/ v = bs "false")) (R := fun e s => exists b, e = EBool b /\ s = bool_text b).
    + apply h_or; [apply h_attempt|]; apply h_tag; auto.
    + intros v s [-> [->| ->]]; (eexists; split; [reflexivity|]); [now exists true|now exists false].
  - cbv beta. intros e a s b Ha Hb (v & -> & ->). apply xlev_not; [exact Ha| |apply l_bool; now apply lx_tok].
    eapply tok_not_quote with (t := bool_text v); [|destruct v; discriminate]. exists []. split; [now rewrite app_nil_r|apply ws_nil].
Qed.
Lemma h_string_literal : hoare string_literal (xlev 0).
Proof.
  unfold string_literal. apply h_name, h_attempt. eapply h_map; [apply h_string|]. intros v s H. exists [], s.
  repeat split; [apply ws_nil|congruence|]. eapply l_str; [exact H|]. exists []. split; [now rewrite app_nil_r|apply ws_nil].
Qed.
Lemma h_identifier : hoare identifier (xlev 0).
Proof.
  unfold identifier. apply h_name. eapply h_map; [apply h_ident|]. cbv beta. intros x s (Hx & a & t & -> & Ha & Ht).
  apply xlev_not; [exact Ha| |apply l_sym; [exact Hx|discriminate|exact Ht]].
  destruct Ht as (w & -> & _). now apply word_not_quote.
Qed.

(** Bracketed lists. *)
Lemma more_args_ws : forall es t, more_args false es t -> forall a, ws a -> es = [] /\ t = [] \/ more_args false es (t ++ a).
Proof.
  intros es t H. induction H as [|c Hc|c e es s t Hc Hs Ht IH]; intros a Ha.
  - now left.
  - right. apply ma_comma. now apply lx_ws.
  - right. rewrite <- !app_assoc. destruct (IH a Ha) as [[-> ->]|K].
    + cbn [app]. rewrite <- (app_nil_r (s ++ a)). apply ma_more; [exact Hc|now apply lev_ws|constructor].
    + now apply ma_more.
Qed.
Lemma tail_args : forall B vs u, SepTail (xlev 4) (fun (_ : B) => ltok (bs ",")) vs u -> led (more_args false vs) u.
Proof.
  intros B vs u H. induction H as [|w t (a & c & -> & Ha & Hc)|w t v s vs u (a & c & -> & Ha & Hc) Hv Hu (a3 & t3 & -> & Ha3 & Ht3)].
  - apply led_0. constructor.
  - exists a, c. repeat split; [exact Ha|now apply ma_comma].
  - destruct (xlev_led Hv) as (a2 & s2 & -> & Ha2 & Hs2). exists a, ((c ++ a2) ++ (s2 ++ a3) ++ t3). split; [now rewrite <- !app_assoc|].
    split; [exact Ha|]. apply ma_more; [now apply lx_ws|now apply lev_ws|exact Ht3].
Qed.
Lemma h_list : forall (p : parser N expr) o c, hoare p (xlev 4) ->
  hoare (p_surround (t_tag o) (p_many0_sep (p_lazy (fun _ => p)) comma) (t_tag c))
    (fun es s => led (fun t => exists o' s' c', t = o' ++ s' ++ c' /\ lx o o' /\ args false es s' /\ lx c c') s).
Proof.
  intros p o c Hp. eapply h_surround with (P := fun es s => es = [] /\ s = [] \/ es <> [] /\ led (args false es) s); [apply h_ttag| |apply h_ttag|].
  - eapply h_many0_sep with (Q := xlev 4) (S := fun _ => ltok (bs ",")); [apply h_lazy, Hp|apply h_ttag| | |].
    + intros v s w t Hv _. apply xlev_ne in Hv. destruct t; [exact Hv|discriminate].
    + now left.
    + intros v s vs t Hv Ht. right. split; [discriminate|]. apply tail_args in Ht. destruct Ht as (a2 & t2 & -> & Ha2 & Ht2).
      destruct (xlev_led Hv) as (a1 & s1 & -> & Ha1 & Hs1). exists a1, ((s1 ++ a2) ++ t2). split; [now rewrite <- !app_assoc|].
      split; [exact Ha1|]. apply a_some; [now apply lev_ws|exact Ht2].
  - cbv beta. intros _ es _ s t u (a1 & o1 & -> & Ha1 & Ho1) Ht (a3 & c3 & -> & Ha3 & Hc3). destruct Ht as [[-> ->]|[Hne (a2 & t2 & -> & Ha2 & Ht2)]].
    + exists a1, ((o1 ++ a3) ++ [] ++ c3). split; [now rewrite <- !app_assoc|]. split; [exact Ha1|].
      exists (o1 ++ a3), [], c3. repeat split; [now apply lx_ws|constructor|exact Hc3].
    + assert (K : args false es (t2 ++ a3)).
      { inv Ht2; [congruence|]. rewrite <- app_assoc. destruct (@more_args_ws _ _ H0 a3 Ha3) as [[-> ->]|K].
        - cbn [app]. rewrite <- (app_nil_r (s ++ a3)). apply a_some; [now apply lev_ws|constructor].
        - now apply a_some. }
      exists a1, ((o1 ++ a2) ++ (t2 ++ a3) ++ c3). split; [now rewrite <- !app_assoc|]. split; [exact Ha1|].
      exists (o1 ++ a2), (t2 ++ a3), c3. repeat split; [now apply lx_ws|exact K|exact Hc3].
Qed.
Lemma h_array_literal : forall p, hoare p (xlev 4) -> hoare (array_literal p) (xlev 0).
Proof.
  intros p Hp. unfold array_literal. apply h_name. eapply h_spaced; [eapply h_map with (R := fun e s => exists es, e = EArray es /\ led (fun t => exists o' s' c', t = o' ++ s' ++ c' /\ lx (bs "[") o' /\ args false es s' /\ lx (bs "]") c') s); [apply h_list, Hp|]|].
  - intros es s H. now exists es.
  - cbv beta. intros e a s b Ha Hb (es & -> & a1 & t & -> & Ha1 & o & s1 & c & -> & Ho & Hs & Hc).
    replace (a ++ (a1 ++ o ++ s1 ++ c) ++ b) with ((a ++ a1) ++ o ++ s1 ++ (c ++ b)) by now rewrite <- !app_assoc.
    apply xlev_not; [now apply ws_app|eapply tok_not_quote; [exact Ho|discriminate]|]. apply l_array; [exact Ho|exact Hs|now apply lx_ws].
Qed.
Lemma h_function_call : forall p, hoare p (xlev 4) -> hoare (function_call p) (xlev 0).
Proof.
  intros p Hp. unfold function_call. apply h_name, h_attempt.
  eapply h_spaced with (Q := fun e s => exists f es, e = ECall f es /\ led (fun t => exists n o' s' c', t = n ++ o' ++ s' ++ c' /\ word f /\ lx f n /\ lx (bs "(") o' /\ args false es s' /\ lx (bs ")") c') s).
  - eapply h_map with (Q := fun v s => exists s1 t1, s1 ++ t1 = s /\ (word (fst v) /\ ltok (fst v) s1) /\
      led (fun t0 => exists o' s' c', t0 = o' ++ s' ++ c' /\ lx (bs "(") o' /\ args false (snd v) s' /\ lx (bs ")") c') t1).
    + eapply h_and; [apply h_ident|apply (@h_list p (bs "(") (bs ")") Hp)|].
      cbv beta. intros f es s t H1 H2. exists s, t. split; [reflexivity|]. split; [exact H1|exact H2].
    + cbv beta. intros [f es] s (s1 & t1 & <- & [Hf (a1 & n & -> & Ha1 & Hn)] & (a2 & t2 & -> & Ha2 & o & s' & c & -> & Ho & Hs & Hc)). cbn [fst snd] in *.
      exists f, es. split; [reflexivity|]. exists a1, ((n ++ a2) ++ o ++ s' ++ c). split; [now rewrite <- !app_assoc|]. split; [exact Ha1|].
      exists (n ++ a2), o, s', c. repeat split; try assumption. now apply lx_ws.
  - cbv beta. intros e a s b Ha Hb (f & es & -> & a1 & t & -> & Ha1 & n & o & s' & c & -> & Hf & Hn & Ho & Hs & Hc).
    replace (a ++ (a1 ++ n ++ o ++ s' ++ c) ++ b) with ((a ++ a1) ++ n ++ o ++ s' ++ (c ++ b)) by now rewrite <- !app_assoc.
    apply xlev_not; [now apply ws_app| |apply l_call; try assumption; now apply lx_ws].
    destruct Hn as (w & -> & _). rewrite <- app_assoc. now apply word_not_quote.
Qed.
Definition xparam (v : name * expr) (s : list N) : Prop :=
  exists a n w t, s = a ++ n ++ bs "=" ++ w ++ t /\ ws a /\ word (fst v) /\ lx (fst v) n /\ ws w /\ (w <> [] -> ~ begins [34%N] t) /\ glev 4 (snd v) t.
Lemma h_param : forall p, hoare p (xlev 4) -> hoare (param p) xparam.
Proof.
  intros p Hp. unfold param. eapply h_map with (Q := xparam); [|auto].
  eapply h_and with (P := fun x s => exists a n, s = a ++ n ++ bs "=" /\ ws a /\ word x /\ lx x n); [|apply h_lazy, Hp|].
  - eapply h_skip_right; [apply h_ident|apply h_elm_ref with (R := fun _ s => s = bs "="); reflexivity|].
    cbv beta. intros x _ s t [Hx (a & n & -> & Ha & Hn)] ->. exists a, n. now rewrite <- app_assoc.
  - cbv beta. intros x e s t (a & n & -> & Ha & Hx & Hn) (w & u & -> & Hw & Hq & Hu). exists a, n, w, u. cbn [fst snd]. rewrite <- !app_assoc. auto 10.
Qed.
Lemma more_params_ws : forall ps t, more_params false ps t -> forall a, ws a -> ps = [] /\ t = [] \/ more_params false ps (t ++ a).
Proof.
  intros ps t H. apply (@more_params_mut false (fun _ _ _ _ => True) (fun _ _ _ => True) (fun _ _ _ => True)
    (fun ps s _ => forall a, ws a -> params false ps (s ++ a)) (fun ps t _ => forall a, ws a -> ps = [] /\ t = [] \/ more_params false ps (t ++ a))); auto.
  - intros x n w e s ps0 t0 Hx Hn Hw Hq Hs _ Ht IH a Ha.
    destruct (IH a Ha) as [[-> ->]|K].
    + rewrite app_nil_r, <- !app_assoc. rewrite <- (app_nil_r (s ++ a)). apply p_some; try assumption; [|now apply lev_ws].
      intros Hne. rewrite begins_app; [now apply Hq|now apply lev_ne in Hs].
    + rewrite <- !app_assoc. now apply p_some.
  - intros c Hc a Ha. right. apply mp_comma. now apply lx_ws.
  - intros c ps0 s Hc Hs IH a Ha. right. rewrite <- app_assoc. apply mp_more; [exact Hc|now apply IH].
Qed.
Lemma tail_params : forall B vs u, SepTail xparam (fun (_ : B) => ltok (bs ",")) vs u -> led (more_params false vs) u.
Proof.
  intros B vs u H. induction H as [|w t (a & c & -> & Ha & Hc)|w0 t v s vs u (a & c & -> & Ha & Hc) Hv Hu (a3 & t3 & -> & Ha3 & Ht3)].
  - apply led_0. constructor.
  - exists a, c. repeat split; [exact Ha|now apply mp_comma].
  - destruct v as [x e]. destruct Hv as (a2 & n & w & t2 & -> & Ha2 & Hx & Hn & Hw & Hq & Ht2). cbn [fst snd] in *.
    exists a, ((c ++ a2) ++ n ++ bs "=" ++ w ++ (t2 ++ a3) ++ t3). split; [now rewrite <- !app_assoc|].
    split; [exact Ha|]. apply mp_more; [now apply lx_ws|]. apply p_some; try assumption; [|now apply lev_ws].
    intros Hne. rewrite begins_app; [now apply Hq|now apply lev_ne in Ht2].
Qed.
Lemma h_labelled_call : forall p, hoare p (xlev 4) -> hoare (labelled_call p) (xlev 0).
Proof.
  intros p Hp. unfold labelled_call. apply h_name, h_attempt.
  eapply h_spaced with (Q := fun e s => exists f ps, e = ELabelled f ps /\ led (fun t => exists n o' s' c', t = n ++ o' ++ s' ++ c' /\ word f /\ lx f n /\ lx (bs "[") o' /\ params false ps s' /\ lx (bs "]") c') s).
  - eapply h_map with (Q := fun v s => led (fun t => exists n o' s' c', t = n ++ o' ++ s' ++ c' /\ word (fst v) /\ lx (fst v) n /\ lx (bs "[") o' /\ params false (snd v) s' /\ lx (bs "]") c') s).
    + eapply h_and; [apply h_ident| |].
      * eapply h_surround with (P := fun ps s => led (params false ps) s)
          (Q := fun ps s => led (fun t => exists o' s' c', t = o' ++ s' ++ c' /\ lx (bs "[") o' /\ params false ps s' /\ lx (bs "]") c') s); [apply h_ttag| |apply h_ttag|].
        -- eapply h_many1_sep with (Q := xparam) (S := fun _ => ltok (bs ",")); [apply h_param, Hp|apply h_ttag| |].
           ++ intros v s w t (a & n & w0 & t0 & -> & _) _ E. destruct t; [|discriminate]. destruct a; [|discriminate]. destruct n; discriminate.
           ++ intros [x e] s vs t (a & n & w & t0 & -> & Ha & Hx & Hn & Hw & Hq & Ht0) Ht. cbn [fst snd] in *. apply tail_params in Ht. destruct Ht as (a2 & t2 & -> & Ha2 & Ht2).
              exists a, (n ++ bs "=" ++ w ++ (t0 ++ a2) ++ t2). split; [now rewrite <- !app_assoc|]. split; [exact Ha|].
              apply p_some; try assumption; [|now apply lev_ws]. intros Hne. rewrite begins_app; [now apply Hq|now apply lev_ne in Ht0].
        -- cbv beta. intros _ ps _ s t u (a1 & o1 & -> & Ha1 & Ho1) (a2 & t2 & -> & Ha2 & Ht2) (a3 & c3 & -> & Ha3 & Hc3).
           exists a1, ((o1 ++ a2) ++ (t2 ++ a3) ++ c3). split; [now rewrite <- !app_assoc|]. split; [exact Ha1|].
           exists (o1 ++ a2), (t2 ++ a3), c3. repeat split; [now apply lx_ws| |exact Hc3].
           inv Ht2. rewrite <- !app_assoc. destruct (@more_params_ws _ _ H4 a3 Ha3) as [[-> ->]|K].
           ++ cbn [app]. rewrite <- (app_nil_r (s ++ a3)). apply p_some; try assumption; [|now apply lev_ws].
              intros Hne. rewrite begins_app; [now apply H2|now apply lev_ne in H3].
           ++ now apply p_some.
      * cbv beta. intros f ps s t [Hf (a1 & n & -> & Ha1 & Hn)] (a2 & t2 & -> & Ha2 & o & s' & c & -> & Ho & Hs & Hc). cbn [fst snd].
        exists a1, ((n ++ a2) ++ o ++ s' ++ c). split; [now rewrite <- !app_assoc|]. split; [exact Ha1|].
        exists (n ++ a2), o, s', c. repeat split; try assumption. now apply lx_ws.
    + intros [f ps] s H. now exists f, ps.
  - cbv beta. intros e a s b Ha Hb (f & ps & -> & a1 & t & -> & Ha1 & n & o & s' & c & -> & Hf & Hn & Ho & Hs & Hc).
    replace (a ++ (a1 ++ n ++ o ++ s' ++ c) ++ b) with ((a ++ a1) ++ n ++ o ++ s' ++ (c ++ b)) by now rewrite <- !app_assoc.
    apply xlev_not; [now apply ws_app| |apply l_labelled; try assumption; now apply lx_ws].
    destruct Hn as (w & -> & _). rewrite <- app_assoc. now apply word_not_quote.
Qed.
Lemma h_paren_expr : forall p, hoare p (xlev 4) -> hoare (paren_expr p) (xlev 0).
Proof.
  intros p Hp. unfold paren_expr. eapply h_map with (Q := fun e s => xlev 0 (EParen e) s); [|auto].
  eapply h_skip_right with (P := fun e s => exists a o t, s = a ++ o ++ t /\ ws a /\ lx (bs "(") o /\ glev 4 e t); [|apply h_ttag|].
  - eapply h_skip_left; [apply h_ttag|apply h_lazy, Hp|]. cbv beta. intros _ e s t (a & o & -> & Ha & Ho) Ht.
    destruct (xlev_led Ht) as (a2 & t2 & -> & Ha2 & Ht2). exists a, (o ++ a2), t2. split; [now rewrite <- !app_assoc|]. split; [exact Ha|]. split; [now apply lx_ws|exact Ht2].
  - cbv beta. intros e _ s t (a & o & t2 & -> & Ha & Ho & Ht2) (a3 & c & -> & Ha3 & Hc).
    replace ((a ++ o ++ t2) ++ a3 ++ c) with (a ++ o ++ (t2 ++ a3) ++ c) by now rewrite <- !app_assoc.
    apply xlev_not; [exact Ha|eapply tok_not_quote; [exact Ho|discriminate]|]. apply l_paren; [exact Ho|now apply lev_ws|exact Hc].
Qed.
Lemma h_primary_of : forall p, hoare p (xlev 4) -> hoare (primary_of nd p) (xlev 0).
Proof.
  intros p Hp. unfold primary_of. apply h_name. repeat apply h_or.
  - now apply h_paren_expr.
  - apply h_integer.
  - apply h_string_literal.
  - now apply h_function_call.
  - now apply h_labelled_call.
  - now apply h_array_literal.
  - apply h_bool.
  - apply h_identifier.
Qed.
(** One level of operators. *)
Definition xop (k : nat) (g : expr -> expr -> expr) (s : list N) : Prop := exists o, g = EBin o /\ op_level o = k /\ ltok (op_text o) s.
Lemma op_text_ne : forall o, op_text o <> [].
Proof. intros []; discriminate. Qed.
Lemma xop_ne : forall k g s, xop k g s -> s <> [].
Proof. intros k g s (o & _ & _ & a & t & -> & _ & Ht). apply lx_ne in Ht; [|apply op_text_ne]. destruct a; [exact Ht|discriminate]. Qed.
Lemma h_level : forall k (p : parser N expr) op, k < 4 -> hoare p (xlev k) -> hoare op (xop k) -> hoare (p_chain_left1 p op) (xlev (S k)).
Proof.
  intros k p op Hk Hp Ho. eapply h_chain_left1; [exact Hp|exact Ho|apply xop_ne| |].
  - intros e s (a & t & -> & Ha & Hq & Ht). exists a, t. repeat split; [exact Ha|exact Hq|now apply l_up].
  - intros l s g t r u (a & s1 & -> & Ha & Hq & Hs1) (o & -> & Hl & a2 & t2 & -> & Ha2 & Ht2) Hr.
    destruct (xlev_led Hr) as (a3 & u3 & -> & Ha3 & Hu3). exists a, ((s1 ++ a2) ++ (t2 ++ a3) ++ u3). split; [now rewrite <- !app_assoc|].
    split; [exact Ha|]. split.
    + intros Hne. rewrite <- app_assoc. rewrite begins_app; [now apply Hq|now apply lev_ne in Hs1].
    + apply l_bin; [now apply lev_ws|exact Hl|now apply lx_ws|exact Hu3].
Qed.
Lemma h_op2 : forall k c1 c2 o1 o2 f, op_text o1 = [c1] -> op_text o2 = [c2] -> op_level o1 = k -> op_level o2 = k -> f c1 = Some (EBin o1) -> f c2 = Some (EBin o2) ->
  hoare (p_map_panic (p_or (t_sym c1) (t_sym c2)) f) (xop k).
Proof.
  intros k c1 c2 o1 o2 f T1 T2 L1 L2 F1 F2. eapply h_map_panic with (Q := fun v s => v = c1 /\ ltok [c1] s \/ v = c2 /\ ltok [c2] s).
  - apply h_or; (eapply h_weaken; [apply h_tsym|]); cbv beta; intros v s [-> H]; [now left|now right].
  - intros v s [[-> H]|[-> H]]; [exists (EBin o1)|exists (EBin o2)]; (split; [assumption|]); [exists o1|exists o2]; rewrite ?T1, ?T2; auto.
Qed.
Lemma h_op1 : forall k c o f, op_text o = [c] -> op_level o = k -> f c = Some (EBin o) -> hoare (p_map_panic (t_sym c) f) (xop k).
Proof.
  intros k c o f T L F. eapply h_map_panic; [apply h_tsym|]. cbv beta. intros v s [-> H]. exists (EBin o). split; [exact F|]. exists o. rewrite T. auto.
Qed.
Lemma h_comp_op : hoare comp_op (xop 3).
Proof.
  unfold comp_op. eapply h_map_panic with (Q := fun v s => exists o, v = op_text o /\ op_level o = 3 /\ ltok v s).
  - eapply h_spaced with (Q := fun v s => s = v /\ exists o, v = op_text o /\ op_level o = 3).
    + assert (G : forall o, op_level o = 3 -> hoare (p_tag (op_text o)) (fun v s => s = v /\ exists o, v = op_text o /\ op_level o = 3)).
      { intros o Ho. apply h_tag. split; [reflexivity|]. now exists o. }
      repeat apply h_or; try apply h_attempt; [exact (G OAnd eq_refl)|exact (G OOr eq_refl)|exact (G OLe eq_refl)|exact (G OGe eq_refl)|exact (G OLt eq_refl)
        |exact (G OGt eq_refl)|exact (G ONe eq_refl)|exact (G OEq eq_refl)].
    + cbv beta. intros v a s b Ha Hb [-> (o & -> & Ho)]. exists o. repeat split; [exact Ho|]. exists a, (op_text o ++ b). repeat split; [exact Ha|now apply lx_tok].
  - intros v s (o & -> & Ho & H). exists (EBin o). split; [destruct o; discriminate || reflexivity|]. now exists o.
Qed.
Lemma h_expression_of : forall p, hoare p (xlev 0) -> hoare (expression_of p) (xlev 4).
Proof.
  intros p Hp. unfold expression_of, comparative, t_additive, t_moditive, t_multitive.
  apply h_name, h_name, h_level; [lia| |apply h_comp_op].
  apply h_name, h_level; [lia| |now apply h_op2 with (o1 := OAdd) (o2 := OSub)].
  apply h_name, h_level; [lia| |now apply h_op1 with (o := OMod)].
  apply h_name, h_level; [lia| |now apply h_op2 with (o1 := OMul) (o2 := ODiv)]. exact Hp.
Qed.

(** ** Recursion of expressions *)
Fixpoint expression_safe (n : nat) : parser N expr :=
  match n with
  | 0 => p_failed Incomplete Uncommitted
  | S n' => expression_of (primary_of nd (expression_safe n'))
  end.
Lemma h_expression_safe : forall n, hoare (expression_safe n) (xlev 4).
Proof. induction n as [|n IH]; [apply h_failed|]. now apply h_expression_of, h_primary_of. Qed.
Lemma ag_spaced : forall A n (p q : parser N A), agree n p q -> agree n (spaced p) (spaced q).
Proof. intros A n p q H. unfold spaced. apply ag_skip_right; [|apply ag_refl]. apply ag_skip_left; [apply ag_refl|exact H]. Qed.
Lemma ag_primary_of : forall n p q, agree n p q -> agree (S n) (primary_of nd p) (primary_of nd q).
Proof.
  intros n p q H. unfold primary_of. apply ag_name. repeat apply ag_or; try apply ag_refl.
  - unfold paren_expr. apply ag_map, ag_skip_right; [|apply ag_refl]. apply ag_skip_left_S; [apply consumes_ttag|]. now apply ag_lazy.
  - unfold function_call. apply ag_name, ag_attempt, ag_spaced, ag_map, ag_and; [apply ag_refl|]. apply ag_surround_S; [apply consumes_ttag|]. now apply ag_repeat_sep, ag_lazy.
  - unfold labelled_call. apply ag_name, ag_attempt, ag_spaced, ag_map, ag_and; [apply ag_refl|]. apply ag_surround_S; [apply consumes_ttag|].
    apply ag_repeat_sep. unfold param. apply ag_map, ag_and; [apply ag_refl|]. now apply ag_lazy.
  - unfold array_literal. apply ag_name, ag_spaced, ag_map. apply ag_surround_S; [apply consumes_ttag|]. now apply ag_repeat_sep, ag_lazy.
Qed.
Lemma ag_expression_of : forall n p q, agree n p q -> agree n (expression_of p) (expression_of q).
Proof.
  intros n p q H. unfold expression_of, comparative, t_additive, t_moditive, t_multitive.
  apply ag_name, ag_name, ag_chain_left1, ag_name, ag_chain_left1, ag_name, ag_chain_left1, ag_name, ag_chain_left1. exact H.
Qed.
Lemma ag_expression : forall n m, n <= m -> agree n (expression_fuel nd m) (expression_safe n).
Proof.
  induction n as [|n IH]; intros m Hm.
  - intros inp off H. lia.
  - destruct m as [|m]; [lia|]. cbn [expression_fuel expression_safe]. apply ag_expression_of, ag_primary_of, IH. lia.
Qed.
Lemma expression_enough : forall inp off fuel, length inp < fuel -> expression_fuel nd fuel inp off = expression nd inp off.
Proof.
  intros inp off fuel H. unfold expression. rewrite (ag_expression H), (ag_expression (le_n (S (length inp)))) by lia. reflexivity.
Qed.
Lemma h_expression : hoare (expression nd) (xlev 4).
Proof.
  intros inp off Ho. unfold expression. rewrite (ag_expression (le_n (S (length inp)))) by lia. now apply h_expression_safe.
Qed.

(** ** Statements *)
Definition xstm (e : expr) (s : list N) : Prop := led (fun t => exists o, gstm o e t) s.
Lemma stm_ne : forall st o e s, stm st o e s -> s <> [].
Proof.
  intros st o e s H. destruct H; try (match goal with H : lx ?t ?k |- ?k ++ _ <> [] => apply lx_ne in H; [destruct k; [congruence|discriminate]|first [discriminate|now apply word_ne]] end).
  apply lev_ne in H. destruct s; [congruence|discriminate].
Qed.
Lemma xstm_ne : forall e s, xstm e s -> s <> [].
Proof. intros e s (a & t & -> & _ & o & H). apply stm_ne in H. destruct a; [exact H|discriminate]. Qed.
Lemma items_stms : forall vs u, Items xstm vs u -> led (stms false vs) u.
Proof.
  intros vs u H. induction H as [|v s vs t (a & s1 & -> & Ha & o & Hs) H (a2 & t2 & -> & Ha2 & Ht2)].
  - apply led_0. constructor.
  - exists a, ((s1 ++ a2) ++ t2). split; [now rewrite <- !app_assoc|]. split; [exact Ha|]. eapply ss_cons; [apply stm_ws; eassumption|discriminate|exact Ht2].
Qed.
Lemma stms_ws : forall es s, stms false es s -> forall a, ws a -> es = [] /\ s = [] \/ stms false es (s ++ a).
Proof.
  intros es s H. induction H as [|op e es s t Hs Ho Ht IH]; intros a Ha; [now left|]. right. rewrite <- app_assoc.
  destruct (IH a Ha) as [[-> ->]|K].
  - cbn [app]. rewrite <- (app_nil_r (s ++ a)). eapply ss_cons; [apply stm_ws; eassumption|discriminate|constructor].
  - eapply ss_cons; [eassumption|discriminate|exact K].
Qed.
(** spaced in front of something that absorbs white space at its end. *)
Lemma h_spaced_led : forall A (p : parser N A) (G : A -> list N -> Prop), hoare p (fun v => led (G v)) -> (forall v s a, G v s -> ws a -> G v (s ++ a)) ->
  hoare (spaced p) (fun v => led (G v)).
Proof.
  intros A p G H HG. eapply h_spaced; [exact H|]. cbv beta. intros v a s b Ha Hb (a1 & t & -> & Ha1 & Ht).
  exists (a ++ a1), (t ++ b). split; [now rewrite <- !app_assoc|]. split; [now apply ws_app|now apply HG].
Qed.
(** Sequences of parts with white space before each. *)
Lemma led_app : forall (G H : list N -> Prop) s t, led G s -> led H t -> (forall u a, G u -> ws a -> G (u ++ a)) -> led (fun w => exists u v, w = u ++ v /\ G u /\ H v) (s ++ t).
Proof.
  intros G H s t (a & u & -> & Ha & Hu) (b & v & -> & Hb & Hv) HG. exists a, ((u ++ b) ++ v). split; [now rewrite <- !app_assoc|]. split; [exact Ha|].
  exists (u ++ b), v. repeat split; [now apply HG|exact Hv].
Qed.
Lemma h_and_led : forall A B (p : parser N A) (q : parser N B) (G : A -> list N -> Prop) (H : B -> list N -> Prop),
  hoare p (fun v => led (G v)) -> hoare q (fun v => led (H v)) -> (forall v u a, G v u -> ws a -> G v (u ++ a)) ->
  hoare (p_and p q) (fun v => led (fun w => exists s t, w = s ++ t /\ G (fst v) s /\ H (snd v) t)).
Proof. intros A B p q G H Hp Hq HG. eapply h_and; [exact Hp|exact Hq|]. cbv beta. intros a b s t Hs Ht. eapply led_app; eauto. Qed.
Lemma h_left_led : forall A B (p : parser N A) (q : parser N B) (G : list N -> Prop) (H : B -> list N -> Prop),
  hoare p (fun _ => led G) -> hoare q (fun v => led (H v)) -> (forall u a, G u -> ws a -> G (u ++ a)) ->
  hoare (p_skip_left p q) (fun v => led (fun w => exists s t, w = s ++ t /\ G s /\ H v t)).
Proof. intros A B p q G H Hp Hq HG. eapply h_skip_left; [exact Hp|exact Hq|]. cbv beta. intros a b s t Hs Ht. eapply led_app; eauto. Qed.
Lemma h_right_led : forall A B (p : parser N A) (q : parser N B) (G : A -> list N -> Prop) (H : list N -> Prop),
  hoare p (fun v => led (G v)) -> hoare q (fun _ => led H) -> (forall v u a, G v u -> ws a -> G v (u ++ a)) ->
  hoare (p_skip_right p q) (fun v => led (fun w => exists s t, w = s ++ t /\ G v s /\ H t)).
Proof. intros A B p q G H Hp Hq HG. eapply h_skip_right; [exact Hp|exact Hq|]. cbv beta. intros a b s t Hs Ht. eapply led_app; eauto. Qed.
(** A closing part absorbs white space at its end. *)
Lemma pair_ws : forall (G H : list N -> Prop), (forall u a, H u -> ws a -> H (u ++ a)) -> forall u a, (exists s t, u = s ++ t /\ G s /\ H t) -> ws a -> exists s t, u ++ a = s ++ t /\ G s /\ H t.
Proof. intros G H HH u a (s & t & -> & Hs & Ht) Ha. exists s, (t ++ a). rewrite <- app_assoc. auto. Qed.
Lemma lxw : forall t u a, lx t u -> ws a -> lx t (u ++ a).
Proof. intros. now apply lx_ws. Qed.
Lemma levw : forall k e u a, glev k e u -> ws a -> glev k e (u ++ a).
Proof. intros. now apply lev_ws. Qed.
Lemma stmw : forall e u a, (exists o, gstm o e u) -> ws a -> exists o, gstm o e (u ++ a).
Proof. intros e u a [o H] Ha. exists o. now apply stm_ws. Qed.
Lemma h_expr : hoare (expression nd) (fun e => led (glev 4 e)).
Proof. eapply h_weaken; [apply h_expression|]. intros e s. apply xlev_led. Qed.
Lemma h_tag_led : forall t, hoare (p_tag t) (fun _ => led (lx t)).
Proof. intros t. apply h_tag. apply led_0. exists []. split; [now rewrite app_nil_r|apply ws_nil]. Qed.
Lemma h_tag_space : forall t, hoare (p_skip_right (p_tag t) t_space) (fun _ => led (lx t)).
Proof. intros t. eapply h_skip_right; [apply h_tag with (R := fun _ s => s = t); reflexivity|apply h_tspace|]. cbv beta. intros v _ s w -> Hw. apply led_0. now exists w. Qed.
Lemma h_word_led : hoare ident (fun x => led (fun u => word x /\ lx x u)).
Proof. eapply h_weaken; [apply h_ident|]. cbv beta. intros x s (Hx & a & t & -> & Ha & Ht). now exists a, t. Qed.
Lemma wordw : forall x u a, word x /\ lx x u -> ws a -> word x /\ lx x (u ++ a).
Proof. intros x u a [H1 H2] Ha. split; [exact H1|now apply lx_ws]. Qed.
Ltac wsx := cbv beta; intros; repeat match goal with H : _ /\ _ |- _ => destruct H | H : exists _, _ |- _ => destruct H end; subst; rewrite <- ?app_assoc;
  repeat eexists; try eassumption; try reflexivity; try (now apply lx_ws); try (now apply lev_ws); try (now apply stm_ws).

Lemma h_surround_led : forall A (p : parser N A) o c (G : A -> list N -> Prop), hoare p (fun v => led (G v)) -> (forall v u a, G v u -> ws a -> G v (u ++ a)) ->
  hoare (p_surround (t_tag o) p (t_tag c)) (fun v => led (fun w => exists s t u, w = s ++ t ++ u /\ lx o s /\ G v t /\ lx c u)).
Proof.
  intros A p o c G Hp HG. eapply h_surround; [apply h_ttag|exact Hp|apply h_ttag|]. cbv beta.
  intros _ v _ s t u (a & s1 & -> & Ha & Hs) (b & t1 & -> & Hb & Ht) (d & u1 & -> & Hd & Hu).
  exists a, ((s1 ++ b) ++ (t1 ++ d) ++ u1). split; [now rewrite <- !app_assoc|]. split; [exact Ha|]. exists (s1 ++ b), (t1 ++ d), u1.
  repeat split; [now apply lx_ws|now apply HG|exact Hu].
Qed.
Lemma led_weaken : forall (G H : list N -> Prop) s, led G s -> (forall u, G u -> H u) -> led H s.
Proof. intros G H s (a & t & -> & Ha & Ht) HG. exists a, t. auto. Qed.
Lemma h_println : hoare (println nd) xstm.
Proof.
  unfold println. apply h_name, h_attempt. eapply h_weaken.
  - eapply h_spaced_led with (G := fun e u => exists o, gstm o e u); [|intros; now apply stmw].
    eapply h_map.
    + eapply h_right_led with (G := fun e w => exists k s, w = k ++ s /\ lx (bs "println") k /\ exists o t c, s = o ++ t ++ c /\ lx (bs "(") o /\ glev 4 e t /\ lx (bs ")") c).
      * eapply h_left_led; [apply h_tag_led|eapply h_surround_led; [apply h_lazy, h_expr|intros; now apply lev_ws]|intros; now apply lx_ws].
      * apply h_ttag.
      * intros v u a (k & s & -> & Hk & o & t & c & -> & Ho & Ht & Hc) Ha. exists k, (o ++ t ++ (c ++ a)). split; [now rewrite <- !app_assoc|]. split; [exact Hk|].
        exists o, t, (c ++ a). repeat split; try assumption. now apply lx_ws.
    + cbv beta. intros e s H. eapply led_weaken; [exact H|]. intros w (u & m & -> & (k & s0 & -> & Hk & o & t & c & -> & Ho & Ht & Hc) & Hm).
      exists false. rewrite <- !app_assoc. now apply s_println.
  - auto.
Qed.
Lemma h_cond : forall (kwp : parser N (list N)) kw, hoare kwp (fun _ => led (lx kw)) ->
  hoare (p_skip_left kwp (p_surround lparen (p_lazy (fun _ => expression nd)) rparen))
    (fun e => led (fun w => exists k o t c, w = k ++ o ++ t ++ c /\ lx kw k /\ lx (bs "(") o /\ glev 4 e t /\ lx (bs ")") c)).
Proof.
  intros kwp kw Hk. eapply h_weaken; [eapply h_left_led; [exact Hk|eapply h_surround_led; [apply h_lazy, h_expr|intros; now apply lev_ws]|intros; now apply lx_ws]|].
  cbv beta. intros e s H. eapply led_weaken; [exact H|]. intros u (k & s1 & -> & Hk1 & o & t & c & -> & Ho & Ht & Hc). exists k, o, t, c. auto.
Qed.
Lemma cond_ws : forall kw e u a, (exists k o t c, u = k ++ o ++ t ++ c /\ lx kw k /\ lx (bs "(") o /\ glev 4 e t /\ lx (bs ")") c) -> ws a ->
  exists k o t c, u ++ a = k ++ o ++ t ++ c /\ lx kw k /\ lx (bs "(") o /\ glev 4 e t /\ lx (bs ")") c.
Proof.
  intros kw e u a (k & o & t & c & -> & Hk & Ho & Ht & Hc) Ha. exists k, o, t, (c ++ a). split; [now rewrite <- !app_assoc|]. repeat split; try assumption. now apply lx_ws.
Qed.
Lemma h_while : forall ln, hoare ln xstm -> hoare (while_p nd ln) xstm.
Proof.
  intros ln Hl. unfold while_p. apply h_name, h_attempt. eapply h_spaced_led with (G := fun e u => exists o, gstm o e u); [|intros; now apply stmw].
  eapply h_map; [eapply h_and_led; [apply h_cond, h_ttag|apply h_lazy, Hl|intros; now apply cond_ws]|].
  cbv beta. intros [e b] s H. eapply led_weaken; [exact H|]. cbn [fst snd]. intros u (s1 & t1 & -> & (k & o & t & c & -> & Hk & Ho & Ht & Hc) & op & Hb).
  exists op. rewrite <- !app_assoc. now apply s_while.
Qed.
Lemma h_if : forall ln, hoare ln xstm -> hoare (if_p nd ln) xstm.
Proof.
  intros ln Hl. unfold if_p. apply h_name, h_attempt. eapply h_spaced_led with (G := fun e u => exists o, gstm o e u); [|intros; now apply stmw].
  eapply h_map with (Q := fun v => led (fun w => exists k o s c t l, w = k ++ o ++ s ++ c ++ t ++ l /\ lx (bs "if") k /\ lx (bs "(") o /\ glev 4 (fst (fst v)) s /\ lx (bs ")") c /\
      (exists op, gstm op (snd (fst v)) t) /\ match snd v with None => l = [] | Some b => exists m u op, l = m ++ u /\ lx (bs "else") m /\ gstm op b u end)).
  - eapply h_and with (P := fun v => led (fun w => exists k o s c t, w = k ++ o ++ s ++ c ++ t /\ lx (bs "if") k /\ lx (bs "(") o /\ glev 4 (fst v) s /\ lx (bs ")") c /\
      (exists op, gstm op (snd v) t)))
      (Q := fun v s => match v with None => s = [] | Some b => led (fun l => exists m u op, l = m ++ u /\ lx (bs "else") m /\ gstm op b u) s end).
    + eapply h_weaken; [eapply h_and_led with (G := fun e w => exists k o t c, w = k ++ o ++ t ++ c /\ lx (bs "if") k /\ lx (bs "(") o /\ glev 4 e t /\ lx (bs ")") c); [|exact Hl|intros; now apply cond_ws]|].
      * eapply h_weaken; [eapply h_right_led; [eapply h_left_led with (G := fun w => exists s t, w = s ++ t /\ lx (bs "if") s /\ lx (bs "(") t);
          [eapply h_weaken; [eapply h_left_led; [apply h_tag_space|apply h_ttag|intros; now apply lx_ws]|cbv beta; auto]|apply h_expr|]|apply h_ttag|]|].
        -- intros u a. apply (@pair_ws _ (lx (bs "("))). apply lxw.
        -- intros e u a. apply (@pair_ws _ (glev 4 e)). apply levw.
        -- cbv beta. intros e s H. eapply led_weaken; [exact H|]. intros u (s1 & c & -> & (s2 & t & -> & (k & o & -> & Hk & Ho) & Ht) & Hc). exists k, o, t, c. rewrite <- !app_assoc. auto.
      * cbv beta. intros [e b] s H. eapply led_weaken; [exact H|]. cbn [fst snd]. intros u (s1 & t1 & -> & (k & o & t & c & -> & Hk & Ho & Ht & Hc) & Hb).
        exists k, o, t, c, t1. rewrite <- !app_assoc. auto 10.
    + eapply h_opt; [eapply h_left_led; [apply h_ttag|exact Hl|intros; now apply lx_ws]| |reflexivity].
      cbv beta. intros b s H. eapply led_weaken; [exact H|]. intros u (m & v & -> & Hm & op & Hv). exists m, v, op. auto.
    + cbv beta. intros [e b] v s t (a & s1 & -> & Ha & k & o & u & c & t1 & -> & Hk & Ho & Hu & Hc & op & Hb) Hv. cbn [fst snd] in *.
      destruct v as [v|].
      * destruct Hv as (a2 & l & -> & Ha2 & m & w & op2 & -> & Hm & Hw). exists a, (k ++ o ++ u ++ c ++ (t1 ++ a2) ++ (m ++ w)). split; [now rewrite <- !app_assoc|]. split; [exact Ha|].
        exists k, o, u, c, (t1 ++ a2), (m ++ w). repeat split; try assumption; [exists op; now apply stm_ws|]. exists m, w, op2. auto.
      * subst t. exists a, (k ++ o ++ u ++ c ++ t1 ++ []). split; [now rewrite <- !app_assoc|]. split; [exact Ha|].
        exists k, o, u, c, t1, []. repeat split; try assumption. now exists op.
  - cbv beta. intros [[e b] v] s H. eapply led_weaken; [exact H|]. cbn [fst snd]. intros w (k & o & u & c & t & l & -> & Hk & Ho & Hu & Hc & [op Hb] & Hv).
    destruct v as [v|].
    + destruct Hv as (m & w & op2 & -> & Hm & Hw). exists op2. eapply s_ifelse; try eassumption. discriminate.
    + subst l. rewrite app_nil_r. exists true. eapply s_if; eassumption.
Qed.
Lemma h_for : forall ln, hoare ln xstm -> hoare (for_p nd ln) xstm.
Proof.
  intros ln Hl. unfold for_p. apply h_name, h_attempt. eapply h_spaced_led with (G := fun e u => exists o, gstm o e u); [|intros; now apply stmw].
  eapply h_map.
  - eapply h_and_led; [eapply h_left_led; [apply h_tag_space| |intros; now apply lx_ws]|apply h_lazy, Hl|].
    + unfold for_params. eapply h_right_led with (G := fun v w => exists o n i s1 j s2, w = o ++ n ++ i ++ s1 ++ j ++ s2 /\ lx (bs "(") o /\ word (fst (fst v)) /\ lx (fst (fst v)) n /\
        lx (bs "in") i /\ glev 4 (snd (fst v)) s1 /\ lx (bs "to") j /\ glev 4 (snd v) s2); [|apply h_ttag|].
      * eapply h_skip_right; [| apply h_tspace |].
        -- eapply h_and_led; [eapply h_right_led; [eapply h_and_led; [eapply h_right_led; [eapply h_left_led; [apply h_ttag|apply h_word_led|intros; now apply lx_ws]| |]|apply h_expr|]|apply h_ttag|]|apply h_expr|].
           ++ eapply h_and with (P := fun _ => ltok (bs "in")) (R := fun _ => led (lx (bs "in"))); [|apply h_tspace|].
              ** eapply h_and; [apply h_tspace|apply h_tag with (R := fun _ s => s = bs "in"); reflexivity|]. cbv beta. intros _ _ s t Hs ->. exists s, (bs "in"). repeat split; [exact Hs|]. exists []. split; [reflexivity|apply ws_nil].
              ** cbv beta. intros _ _ s t (a & u & -> & Ha & Hu) Ht. exists a, (u ++ t). split; [now rewrite <- app_assoc|]. split; [exact Ha|now apply lx_ws].
           ++ intros x u a. apply (@pair_ws _ (fun u => word x /\ lx x u)). apply wordw.
           ++ intros x u a. apply (@pair_ws _ (lx (bs "in"))). apply lxw.
           ++ intros x u a. apply (@pair_ws _ (glev 4 (snd x))). apply levw.
           ++ intros x u a. apply (@pair_ws _ (lx (bs "to"))). apply lxw.
        -- cbv beta. intros [[x e1] e2] _ s t H Ht. destruct H as (a & u & -> & Ha & v & s2 & -> & (v1 & j & -> & (v2 & s1 & -> & (v3 & i & -> & (o & n & -> & Ho & Hx & Hn) & Hi) & H1) & Hj) & H2). cbn [fst snd] in *.
           exists a, (o ++ n ++ i ++ s1 ++ j ++ (s2 ++ t)). split; [now rewrite <- !app_assoc|]. split; [exact Ha|].
           exists o, n, i, s1, j, (s2 ++ t). repeat split; try assumption. now apply lev_ws.
      * intros [[x e1] e2] u a (o & n & i & s1 & j & s2 & -> & Ho & Hx & Hn & Hi & H1 & Hj & H2) Ha. cbn [fst snd] in *.
        exists o, n, i, s1, j, (s2 ++ a). split; [now rewrite <- !app_assoc|]. repeat split; try assumption. now apply lev_ws.
    + cbv beta. intros v u a (k & w & -> & Hk & p & c & -> & Hp & Hc) Ha. exists k, (p ++ (c ++ a)). split; [now rewrite <- !app_assoc|]. split; [exact Hk|]. exists p, (c ++ a). repeat split; [exact Hp|now apply lx_ws].
  - cbv beta. intros [[[x e1] e2] b] s H. eapply led_weaken; [exact H|]. cbn [fst snd].
    intros w0 (u & t & -> & (k & w & -> & Hk & p & c & -> & (o & n & i & s1 & j & s2 & -> & Ho & Hx & Hn & Hi & H1 & Hj & H2) & Hc) & op & Hb).
    exists op. rewrite <- !app_assoc. apply s_for; try assumption; discriminate.
Qed.
Lemma h_block : forall ln, hoare ln xstm -> hoare (block ln) (fun e => led (fun u => exists es o s c, e = EBlock es /\ u = o ++ s ++ c /\ lx (bs "{") o /\ stms false es s /\ lx (bs "}") c)).
Proof.
  intros ln Hl. unfold block. apply h_name. eapply h_spaced_led.
  - eapply h_map with (Q := fun es => led (fun u => exists o s c, u = o ++ s ++ c /\ lx (bs "{") o /\ stms false es s /\ lx (bs "}") c)).
    + eapply h_surround with (P := fun es => led (stms false es)); [apply h_ttag| |apply h_ttag|].
      * eapply h_many0; [apply h_lazy, Hl|apply xstm_ne|apply items_stms].
      * cbv beta. intros _ es _ s t u (a & o & -> & Ha & Ho) (b & t1 & -> & Hb & Ht) (d & c & -> & Hd & Hc).
        destruct (stms_ws Ht Hd) as [[-> ->]|K].
        -- exists a, ((o ++ b ++ d) ++ [] ++ c). split; [now rewrite <- !app_assoc|]. split; [exact Ha|].
           exists (o ++ b ++ d), [], c. repeat split; [apply lx_ws; [exact Ho|now apply ws_app]|constructor|exact Hc].
        -- exists a, ((o ++ b) ++ (t1 ++ d) ++ c). split; [now rewrite <- !app_assoc|]. split; [exact Ha|].
           exists (o ++ b), (t1 ++ d), c. repeat split; [now apply lx_ws|exact K|exact Hc].
    + cbv beta. intros es s H. eapply led_weaken; [exact H|]. intros u (o & t & c & -> & Ho & Ht & Hc). exists es, o, t, c. auto.
  - intros e u a (es & o & t & c & -> & -> & Ho & Ht & Hc) Ha. exists es, o, t, (c ++ a). split; [reflexivity|]. split; [now rewrite <- !app_assoc|]. repeat split; try assumption. now apply lx_ws.
Qed.
Lemma h_assign_body : forall A (p : parser N A) (G : A -> list N -> Prop), hoare p (fun v => led (G v)) -> (forall v u a, G v u -> ws a -> G v (u ++ a)) ->
  hoare (p_skip_right (p_and (p_skip_right p (t_tag (bs "="))) (expression nd)) semi_colon)
    (fun v => led (fun w => exists n q s m, w = n ++ q ++ s ++ m /\ G (fst v) n /\ lx (bs "=") q /\ glev 4 (snd v) s /\ lx (bs ";") m)).
Proof.
  intros A p G Hp HG. eapply h_weaken; [eapply h_right_led; [eapply h_and_led; [eapply h_right_led; [exact Hp|apply h_ttag|exact HG]|apply h_expr|]|apply h_ttag|]|].
  - intros v u a. apply (@pair_ws _ (lx (bs "="))). apply lxw.
  - intros v u a. apply (@pair_ws _ (glev 4 (snd v))). apply levw.
  - cbv beta. intros v s H. eapply led_weaken; [exact H|]. intros u (s1 & m & -> & (s2 & t & -> & (n & q & -> & Hn & Hq) & Ht) & Hm). exists n, q, t, m. rewrite <- !app_assoc. auto.
Qed.
Lemma h_assignment : hoare (assignment nd) xstm.
Proof.
  unfold assignment. apply h_name, h_attempt. eapply h_spaced_led with (G := fun e u => exists o, gstm o e u); [|intros; now apply stmw].
  eapply h_map; [eapply h_assign_body; [apply h_word_led|intros; now apply wordw]|].
  cbv beta. intros [x e] s H. eapply led_weaken; [exact H|]. cbn [fst snd]. intros u (n & q & t & m & -> & [Hx Hn] & Hq & Ht & Hm).
  exists false. now apply s_assign.
Qed.
Lemma h_expression_line : hoare (expression_line nd) xstm.
Proof.
  unfold expression_line. apply h_name, h_attempt. eapply h_weaken; [eapply h_right_led; [apply h_expr|apply h_ttag|intros; now apply lev_ws]|].
  cbv beta. intros e s H. eapply led_weaken; [exact H|]. intros u (t & m & -> & Ht & Hm). exists false. apply s_expr; [exact Ht|discriminate|exact Hm].
Qed.
Lemma h_line_of : forall ln, hoare ln xstm -> hoare (line_of nd ln) xstm.
Proof.
  intros ln Hl. unfold line_of. apply h_name. eapply h_spaced_led with (G := fun e u => exists o, gstm o e u); [|intros; now apply stmw].
  repeat apply h_or.
  - apply h_println.
  - now apply h_lazy, h_while.
  - now apply h_lazy, h_if.
  - now apply h_lazy, h_for.
  - apply h_assignment.
  - apply h_expression_line.
  - eapply h_weaken; [now apply h_block|]. cbv beta. intros e s H. eapply led_weaken; [exact H|]. intros u (es & o & t & c & -> & -> & Ho & Ht & Hc). exists false. now apply s_block.
Qed.
Fixpoint line_safe (n : nat) : parser N expr :=
  match n with
  | 0 => p_failed Incomplete Uncommitted
  | S n' => line_of nd (line_safe n')
  end.
Lemma h_line_safe : forall n, hoare (line_safe n) xstm.
Proof. induction n as [|n IH]; [apply h_failed|]. now apply h_line_of. Qed.
Lemma bounded_expression : bounded (expression nd).
Proof. eapply h_bounded, h_expression. Qed.
Lemma bounded_ttag : forall t, bounded (t_tag t).
Proof. intros t. eapply h_bounded, h_ttag. Qed.
Definition any A (v : A) (s : list N) : Prop := True.
Lemma hT_and : forall A B (p : parser N A) (q : parser N B) P Q, hoare p P -> hoare q Q -> hoare (p_and p q) (@any _).
Proof. intros. eapply h_and; [eassumption|eassumption|]. intros. exact I. Qed.
Lemma hT_left : forall A B (p : parser N A) (q : parser N B) P Q, hoare p P -> hoare q Q -> hoare (p_skip_left p q) (@any _).
Proof. intros. eapply h_skip_left; [eassumption|eassumption|]. intros. exact I. Qed.
Lemma hT_right : forall A B (p : parser N A) (q : parser N B) P Q, hoare p P -> hoare q Q -> hoare (p_skip_right p q) (@any _).
Proof. intros. eapply h_skip_right; [eassumption|eassumption|]. intros. exact I. Qed.
Lemma ag_line_of : forall n p q, agree n p q -> agree (S n) (line_of nd p) (line_of nd q).
Proof.
  intros n p q H. unfold line_of. apply ag_name, ag_spaced. repeat apply ag_or; try apply ag_refl.
  - apply ag_lazy. unfold while_p. apply ag_name, ag_attempt, ag_spaced, ag_map, ag_and_S; [|now apply ag_lazy].
    apply consumes_skip_left1; [apply consumes_ttag|]. eapply h_bounded, h_surround_led; [apply h_lazy, h_expr|intros; now apply lev_ws].
  - apply ag_lazy. unfold if_p. apply ag_name, ag_attempt, ag_spaced, ag_map.
    assert (C : consumes (p_skip_right (p_skip_left (p_skip_left (p_skip_right (p_tag (bs "if")) t_space) lparen) (expression nd)) rparen)).
    { apply consumes_skip_right1; [|apply bounded_ttag]. apply consumes_skip_left1; [|apply bounded_expression]. apply consumes_skip_left1; [|apply bounded_ttag].
      apply consumes_skip_right1; [apply consumes_tag|eapply h_bounded, h_tspace]. }
    apply ag_and; [now apply ag_and_S|]. apply ag_opt. apply ag_skip_left_S; [apply consumes_ttag|exact H].
  - apply ag_lazy. unfold for_p. apply ag_name, ag_attempt, ag_spaced, ag_map, ag_and_S; [|now apply ag_lazy].
    apply consumes_skip_left1; [apply consumes_skip_right1; [apply consumes_tag|eapply h_bounded, h_tspace]|].
    unfold for_params. eapply h_bounded with (Q := @any _).
    eapply hT_right; [eapply hT_right; [eapply hT_and; [eapply hT_right; [eapply hT_and; [eapply hT_right; [eapply hT_left; [apply h_ttag|apply h_ident]|eapply hT_and; [eapply hT_and; [apply h_tspace|apply h_tag_led]|apply h_tspace]]|apply h_expr]|apply h_ttag]|apply h_expr]|apply h_tspace]|apply h_ttag].
  - unfold block. apply ag_name, ag_spaced, ag_map, ag_surround_S; [apply consumes_ttag|]. now apply ag_repeat_sep, ag_lazy.
Qed.
Lemma ag_line : forall n m, n <= m -> agree n (line_fuel nd m) (line_safe n).
Proof.
  induction n as [|n IH]; intros m Hm.
  - intros inp off H. lia.
  - destruct m as [|m]; [lia|]. cbn [line_fuel line_safe]. apply ag_line_of, IH. lia.
Qed.
Lemma line_enough : forall inp off fuel, length inp < fuel -> line_fuel nd fuel inp off = line nd inp off.
Proof. intros inp off fuel H. unfold line. rewrite (ag_line H), (ag_line (le_n (S (length inp)))) by lia. reflexivity. Qed.
Lemma h_line : hoare (line nd) xstm.
Proof. intros inp off Ho. unfold line. rewrite (ag_line (le_n (S (length inp)))) by lia. now apply h_line_safe. Qed.
Lemma h_lines : hoare (lines nd) (fun es s => es <> [] /\ led (stms false es) s).
Proof.
  unfold lines. eapply h_skip_right with (P := fun es s => es <> [] /\ led (stms false es) s); [|apply (h_end (fun _ s => s = [])); reflexivity|].
  - eapply h_skip_right with (P := fun es s => es <> [] /\ led (stms false es) s); [|apply h_tspace|].
    + eapply h_many1; [apply h_line|apply xstm_ne|intros vs s H Hn; exact (conj Hn (items_stms H))].
    + cbv beta. intros es _ s t [Hn (a & u & -> & Ha & Hu)] Ht. split; [exact Hn|]. exists a, (u ++ t). split; [now rewrite <- app_assoc|]. split; [exact Ha|].
      destruct (stms_ws Hu Ht) as [[E _]|K]; [contradiction|exact K].
  - cbv beta. intros es _ s t H ->. now rewrite app_nil_r.
Qed.

(** ** Programs *)
Lemma more_names_ws : forall xs t, more_names xs t -> forall a, ws a -> xs = [] /\ t = [] \/ more_names xs (t ++ a).
Proof.
  intros xs t H. induction H as [|c Hc|c x xs n t Hc Hx Hn Ht IH]; intros a Ha.
  - now left.
  - right. apply mn_comma. now apply lx_ws.
  - right. rewrite <- !app_assoc. destruct (IH a Ha) as [[-> ->]|K].
    + cbn [app]. rewrite <- (app_nil_r (n ++ a)). apply mn_more; [exact Hc|exact Hx|now apply lx_ws|constructor].
    + now apply mn_more.
Qed.
Lemma tail_names : forall B vs u, SepTail (fun x s => led (fun u => word x /\ lx x u) s) (fun (_ : B) => ltok (bs ",")) vs u -> led (more_names vs) u.
Proof.
  intros B vs u H. induction H as [|w t (a & c & -> & Ha & Hc)|w t v s vs u (a & c & -> & Ha & Hc) Hv Hu (a3 & t3 & -> & Ha3 & Ht3)].
  - apply led_0. constructor.
  - exists a, c. repeat split; [exact Ha|now apply mn_comma].
  - destruct Hv as (a2 & s2 & -> & Ha2 & Hx & Hs2). exists a, ((c ++ a2) ++ (s2 ++ a3) ++ t3). split; [now rewrite <- !app_assoc|].
    split; [exact Ha|]. apply mn_more; [now apply lx_ws|exact Hx|now apply lx_ws|exact Ht3].
Qed.
Lemma h_names : hoare (p_surround lparen (p_many0_sep ident comma) rparen)
    (fun xs s => led (fun t => exists o' s' c', t = o' ++ s' ++ c' /\ lx (bs "(") o' /\ names xs s' /\ lx (bs ")") c') s).
Proof.
  eapply h_surround with (P := fun xs s => xs = [] /\ s = [] \/ xs <> [] /\ led (names xs) s); [apply h_ttag| |apply h_ttag|].
  - eapply h_many0_sep with (S := fun _ => ltok (bs ",")); [apply h_word_led|apply h_ttag| | |].
    + intros v s w t (a & u & -> & _ & Hx & Hu) _. apply lx_ne in Hu; [|now apply word_ne]. destruct t; [|discriminate]. destruct a; [exact Hu|discriminate].
    + now left.
    + intros v s vs t Hv Ht. right. split; [discriminate|]. apply tail_names in Ht. destruct Ht as (a2 & t2 & -> & Ha2 & Ht2).
      destruct Hv as (a1 & s1 & -> & Ha1 & Hx & Hs1). exists a1, ((s1 ++ a2) ++ t2). split; [now rewrite <- !app_assoc|].
      split; [exact Ha1|]. apply n_some; [exact Hx|now apply lx_ws|exact Ht2].
  - cbv beta. intros _ xs _ s t u (a1 & o1 & -> & Ha1 & Ho1) Ht (a3 & c3 & -> & Ha3 & Hc3). destruct Ht as [[-> ->]|[Hne (a2 & t2 & -> & Ha2 & Ht2)]].
    + exists a1, ((o1 ++ a3) ++ [] ++ c3). split; [now rewrite <- !app_assoc|]. split; [exact Ha1|].
      exists (o1 ++ a3), [], c3. repeat split; [now apply lx_ws|constructor|exact Hc3].
    + assert (K : names xs (t2 ++ a3)).
      { inv Ht2; [congruence|]. rewrite <- app_assoc. destruct (@more_names_ws _ _ H1 a3 Ha3) as [[-> ->]|K].
        - cbn [app]. rewrite <- (app_nil_r (n ++ a3)). apply n_some; [assumption|now apply lx_ws|constructor].
        - now apply n_some. }
      exists a1, ((o1 ++ a2) ++ (t2 ++ a3) ++ c3). split; [now rewrite <- !app_assoc|]. split; [exact Ha1|].
      exists (o1 ++ a2), (t2 ++ a3), c3. repeat split; [now apply lx_ws|exact K|exact Hc3].
Qed.
Lemma def_ws : forall st e s, def st e s -> forall a, ws a -> def st e (s ++ a).
Proof.
  intros st e s H a Ha. destruct H; rewrite <- !app_assoc; [apply d_global|apply d_fun]; try assumption; now apply lx_ws.
Qed.
Lemma h_global : hoare (global_variable_definition nd) (fun e => led (def false e)).
Proof.
  unfold global_variable_definition. apply h_name. eapply h_spaced_led; [|intros; now apply def_ws].
  eapply h_map; [eapply h_assign_body; [eapply h_left_led; [apply h_ttag|apply h_word_led|intros; now apply lx_ws]|]|].
  - intros x u a. apply (@pair_ws _ (fun u => word x /\ lx x u)). apply wordw.
  - cbv beta. intros [x e] s H. eapply led_weaken; [exact H|]. cbn [fst snd]. intros u (w & q & t & m & -> & (k & n & -> & Hk & Hx & Hn) & Hq & Ht & Hm).
    rewrite <- !app_assoc. now apply d_global.
Qed.
Lemma h_function : hoare (function_definition nd) (fun e => led (def false e)).
Proof.
  unfold function_definition. apply h_name. eapply h_spaced_led; [|intros; now apply def_ws].
  eapply h_map; [eapply h_and_led; [eapply h_and_led with (G := fun f w => exists k n, w = k ++ n /\ lx (bs "fn") k /\ word f /\ lx f n); [|apply h_names|]|apply (h_block h_line)|]|].
  - eapply h_skip_right with (P := fun f => led (fun w => exists k n, w = k ++ n /\ lx (bs "fn") k /\ word f /\ lx f n)); [|apply h_tspace|].
    + eapply h_left_led; [|apply h_word_led|intros; now apply lx_ws].
      eapply h_skip_left with (P := fun _ s => exists a, s = a ++ bs "fn" /\ ws a); [eapply h_skip_left; [apply h_tspace|apply h_tag with (R := fun _ s => s = bs "fn"); reflexivity|]|apply h_tspace|].
      * cbv beta. intros u1 u2 s t Hs ->. now exists s.
      * cbv beta. intros u1 u2 s t (a & -> & Ha) Ht. exists a, (bs "fn" ++ t). rewrite <- app_assoc. repeat split; [exact Ha|now apply lx_tok].
    + cbv beta. intros f _ s t (a & w & -> & Ha & k & n & -> & Hk & Hf & Hn) Ht. exists a, (k ++ (n ++ t)). rewrite <- !app_assoc. repeat split; [exact Ha|].
      exists k, (n ++ t). repeat split; try assumption. now apply lx_ws.
  - intros f u a (k & n & -> & Hk & Hf & Hn) Ha. exists k, (n ++ a). rewrite <- app_assoc. repeat split; try assumption. now apply lx_ws.
  - cbv beta. intros v u a (w & t & -> & Hw & o & s & c & -> & Ho & Hs & Hc) Ha. exists w, (o ++ s ++ (c ++ a)). rewrite <- !app_assoc. repeat split; [exact Hw|].
    exists o, s, (c ++ a). repeat split; try assumption. now apply lx_ws.
  - cbv beta. intros [[f xs] b] s H. eapply led_weaken; [exact H|]. cbn [fst snd].
    intros u (v & t & -> & (w & v1 & -> & (k & n & -> & Hk & Hf & Hn) & o & s1 & c & -> & Ho & Hs & Hc) & es & p & t1 & q & -> & -> & Hp & Ht & Hq).
    rewrite <- !app_assoc. now apply d_fun.
Qed.
Lemma def_ne : forall st e s, def st e s -> s <> [].
Proof. intros st e s H. destruct H; match goal with H : lx ?t ?k |- ?k ++ _ <> [] => apply lx_ne in H; [destruct k; [congruence|discriminate]|discriminate] end. Qed.
Lemma h_program : hoare (program nd) (fun e s => exists es, e = EProgram es /\ led (defs false es) s).
Proof.
  unfold program. eapply h_skip_left with (Q := fun e s => exists es, e = EProgram es /\ led (defs false es) s); [apply h_tspace| |].
  - eapply h_map with (Q := fun es s => led (defs false es) s); [|intros es s H; now exists es].
    eapply h_many0 with (Q := fun e => led (def false e)).
    + unfold top_level_definition. apply h_name, h_or; [apply h_global|apply h_function].
    + intros e s (a & t & -> & _ & H). apply def_ne in H. destruct a; [exact H|discriminate].
    + intros vs s H. induction H as [|v s vs t (a & s1 & -> & Ha & Hs) H (a2 & t2 & -> & Ha2 & Ht2)].
      * apply led_0. constructor.
      * exists a, ((s1 ++ a2) ++ t2). split; [now rewrite <- !app_assoc|]. split; [exact Ha|]. apply ds_cons; [now apply def_ws|exact Ht2].
  - cbv beta. intros _ e s t Hs (es & -> & Ht). exists es. split; [reflexivity|]. now apply led_ws.
Qed.
End Sound.
