(** Every text of the strict grammar of ToysSyntax.v is accepted, with the tree the grammar gives. *)
From Verif Require Import Base Core Comb Closure RepFacts LitFacts ChainFacts Hoare Runs ChainRules Text Agree Json JsonSpec JsonFacts Calc CalcFacts Toys ToysSyntax ToysParse ToysParseSound.
From Coq Require Import ZArith.
Set Implicit Arguments.
Local Open Scope string_scope.
Local Open Scope nat_scope.
Local Open Scope list_scope.

(** ** Tokens *)
Definition hd_ne (c : N) (l : list N) : Prop := match l with [] => True | y :: _ => y <> c end.
Lemma a_tspace : forall s rest, ws s -> no_ws rest -> acc t_space s rest tt.
Proof. exact a_space. Qed.
Lemma a_spaced : forall A (p : parser N A) a c b rest v, ws a -> ws b -> solid c -> no_ws rest -> acc p c (b ++ rest) v -> acc (spaced p) (a ++ c ++ b) rest v.
Proof.
  intros A p a c b rest v Ha Hb Hc Hr H. unfold spaced. rewrite app_assoc. eapply a_skip_right; [|now apply a_tspace].
  eapply a_skip_left; [|exact H]. apply a_tspace; [exact Ha|now apply solid_no_ws].
Qed.
Lemma r_spaced : forall A (p : parser N A) a l c, ws a -> no_ws l -> rej p l c -> rej (spaced p) (a ++ l) c.
Proof. intros A p a l c Ha Hl H. unfold spaced. apply r_skip_right1. eapply r_skip_left2; [now apply a_tspace|exact H]. Qed.
Lemma a_ttag : forall t a s rest, solid t -> ws a -> lx t s -> no_ws rest -> acc (t_tag t) (a ++ s) rest t.
Proof. intros t a s rest Ht Ha (w & -> & Hw) Hr. unfold t_tag. apply a_spaced; try assumption. apply a_tag. Qed.
Lemma a_ttag0 : forall t s rest, solid t -> lx t s -> no_ws rest -> acc (t_tag t) s rest t.
Proof. intros t s rest Ht Hs Hr. apply (@a_ttag t [] s rest); auto. apply ws_nil. Qed.
Lemma r_ttag : forall c t a l, ws a -> no_ws l -> hd_ne c l -> rej (t_tag (c :: t)) (a ++ l) false.
Proof. intros c t a l Ha Hl H. unfold t_tag. apply r_spaced; [exact Ha|exact Hl|]. now apply r_tag. Qed.
Lemma lx_solid : forall t s, solid t -> lx t s -> solid s.
Proof. intros t s H (w & -> & _). now apply solid_app. Qed.
Lemma lx_hd : forall c t s, lx (c :: t) s -> exists r, s = c :: r.
Proof. intros c t s (w & -> & _). eexists. reflexivity. Qed.
Lemma tag_loop_cases : forall whole t l i, (exists r, l = t ++ r) \/ (exists c, forall input off, exists e, tag_loop N.eqb whole input off t l i = Failure e c).
Proof.
  intros whole t. induction t as [|x t IH]; intros l i; [left; now exists l|]. destruct l as [|y l].
  - right. exists false. intros input off. cbn. unfold failed_with_uncommitted. eauto.
  - cbn. destruct (N.eqb_spec x y) as [->|Hn].
    + destruct (IH l (S i)) as [[r ->]|[c H]]; [left; now exists r|right; exists c; exact H].
    + right. eexists. intros input off. cbn. eauto.
Qed.
Lemma tag_cases : forall t l, (exists r, l = t ++ r) \/ exists c, rej (p_tag t) l c.
Proof.
  intros t l. destruct (tag_loop_cases t t l 0) as [H|[c H]]; [now left|]. right. exists c. intros pre. unfold p_tag, p_tag_by. rewrite input_at. apply H.
Qed.

(** ** Words *)
Lemma word_span : forall x rest, word x -> hd_not ident_char rest -> find_ident (x ++ rest) = Some x.
Proof.
  intros x rest (c & t & -> & Hc & Ht) Hr. cbn [app find_ident]. apply start_iff in Hc. rewrite Hc. rewrite span_app; [reflexivity| |exact Hr].
  rewrite forallb_forall. intros y Hy. rewrite Forall_forall in Ht. now apply ichar_iff, Ht.
Qed.
Lemma a_word : forall x rest, word x -> hd_not ident_char rest -> acc (p_regex find_ident) x rest x.
Proof.
  intros x rest Hx Hr pre. unfold p_regex. rewrite input_at, word_span by assumption. f_equal. apply utf8_len_ascii. now apply word_ascii.
Qed.
Lemma r_word : forall l, hd_not ident_start l -> rej (p_regex find_ident) l false.
Proof.
  intros l H pre. unfold p_regex. rewrite input_at. unfold find_ident. destruct l as [|x l]; [unfold failed_with_uncommitted; eauto|].
  cbn in H. rewrite H. unfold failed_with_uncommitted. eauto.
Qed.
Lemma letter_not_ws : forall c, letter_ c -> ~ is_ws c.
Proof. intros c H K. unfold letter_ in H. cbn in K. lia. Qed.
Lemma word_solid : forall x, word x -> solid x.
Proof. intros x (c & t & -> & Hc & _). now apply letter_not_ws. Qed.
Lemma a_ident : forall x a w rest, word x -> ws a -> ws w -> no_ws rest -> hd_not ident_char (w ++ rest) -> acc ident (a ++ x ++ w) rest x.
Proof. intros x a w rest Hx Ha Hw Hr Hi. unfold ident. apply a_spaced; try assumption; [now apply word_solid|now apply a_word]. Qed.
Lemma r_ident : forall a l, ws a -> no_ws l -> hd_not ident_start l -> rej ident (a ++ l) false.
Proof. intros a l Ha Hl H. unfold ident. apply r_spaced; try assumption. now apply r_word. Qed.

(** ** What may follow an expression *)
Definition stops (k : nat) : list N :=
  bs ")],;" ++ (if k <=? 3 then bs "&|<>=!" else []) ++ (if k <=? 2 then bs "+-" else []) ++ (if k <=? 1 then bs "%" else []) ++ (if k <=? 0 then bs "*/" else []).
Definition fol (k : nat) (s rest : list N) : Prop :=
  match rest with [] => True | x :: _ => In x (stops k) \/ x = chr "t" /\ spaced_off s end.
Lemma stops_0 : forall k x, In x (stops k) -> In x (stops 0).
Proof. intros [|[|[|[|k]]]] x H; cbn in H |- *; tauto. Qed.
Lemma fol_0 : forall k s rest, fol k s rest -> fol 0 s rest.
Proof. intros k s [|x r] H; [exact I|]. destruct H as [H|H]; [left; now apply stops_0 in H|now right]. Qed.
Lemma stop_facts : forall x, In x (stops 0) \/ x = chr "t" -> ~ is_ws x /\ x <> 40%N /\ x <> 91%N /\ x <> 34%N /\ (x < 128)%N /\ ~ digit x.
Proof. intros x H. cbn in H. unfold is_ws, digit. cbn. repeat split; intros; lia. Qed.
Lemma stop_ident : forall x, In x (stops 0) -> ident_char x = false.
Proof. intros x H. cbn in H. repeat (destruct H as [<-|H]; [reflexivity|]). destruct H. Qed.
Lemma fol_no_ws : forall k s rest, fol k s rest -> no_ws rest.
Proof. intros k s rest H. apply fol_0 in H. destruct rest as [|x r]; [exact I|]. apply stop_facts. destruct H as [H|[H _]]; auto. Qed.
Lemma fol_ne : forall k s rest c, fol k s rest -> c = 40%N \/ c = 91%N -> hd_ne c rest.
Proof. intros k s rest c H Hc. apply fol_0 in H. destruct rest as [|x r]; [exact I|]. assert (K : In x (stops 0) \/ x = chr "t") by (destruct H as [H|[H _]]; auto). apply stop_facts in K. cbn. destruct Hc as [->| ->]; tauto. Qed.
Lemma spaced_off_iff : forall s, spaced_off s <-> exists t x, s = t ++ [x] /\ is_ws x.
Proof.
  intros s. split.
  - intros (t & w & -> & Hw & Hn). destruct (exists_last Hn) as (w' & x & ->). apply Forall_app in Hw. destruct Hw as [_ Hx]. inv Hx.
    exists (t ++ w'), x. now rewrite <- app_assoc.
  - intros (t & x & -> & Hx). exists t, [x]. repeat split; [now constructor|discriminate].
Qed.
Lemma spaced_off_app : forall s t, t <> [] -> spaced_off (s ++ t) -> spaced_off t.
Proof.
  intros s t Hn H. apply spaced_off_iff in H. destruct H as (u & x & E & Hx). destruct (exists_last Hn) as (t' & y & ->).
  rewrite app_assoc in E. apply app_inj_tail in E. destruct E as [_ ->]. apply spaced_off_iff. now exists t', x.
Qed.
Lemma fol_app : forall k s t rest, t <> [] -> fol k (s ++ t) rest -> fol k t rest.
Proof. intros k s t [|x r] Hn H; [exact I|]. destruct H as [H|[-> H]]; [now left|right; split; [reflexivity|now apply spaced_off_app in H]]. Qed.
Lemma ws_not_ident : forall w rest, ws w -> (w = [] -> hd_not ident_char rest) -> hd_not ident_char (w ++ rest).
Proof.
  intros [|y w] rest Hw H; [now apply H|]. inversion Hw as [|? ? Hy _]; subst. cbn in Hy |- *. repeat (destruct Hy as [<-|Hy]; [reflexivity|]). destruct Hy.
Qed.
Lemma word_not_off : forall x, word x -> ~ spaced_off x.
Proof.
  intros x (c & t & -> & Hc & Ht) H. apply spaced_off_iff in H. destruct H as (u & y & E & Hy).
  assert (K : letter_ y \/ digit y).
  { assert (Hi : In y (c :: t)) by (rewrite E; apply in_or_app; right; now left). destruct Hi as [<-|Hi]; [now left|]. rewrite Forall_forall in Ht. now apply Ht. }
  unfold letter_, digit in K. cbn in Hy. lia.
Qed.
Lemma fol_ident : forall x w rest, word x -> ws w -> fol 0 (x ++ w) rest -> hd_not ident_char (w ++ rest).
Proof.
  intros x w rest Hx Hw H. apply ws_not_ident; [exact Hw|]. intros ->. rewrite app_nil_r in H. destruct rest as [|y r]; [exact I|].
  destruct H as [H|[_ H]]; [now apply stop_ident|]. now apply word_not_off in H.
Qed.
Definition lead (a s : list N) : Prop := ws a /\ (a <> [] -> ~ begins [34%N] s).
Lemma lead_nil : forall s, lead [] s.
Proof. intros s. split; [apply ws_nil|congruence]. Qed.
Lemma lev_hd : forall st k e s, lev st k e s -> exists x t, s = x :: t /\ (letter_ x \/ digit x \/ In x [40; 34; 91; 45]%N).
Proof.
  intros st k e s H. induction H as [e o s c (w & -> & _) H IH Hc|z t s Hz (w & -> & _)|v t s (is & _ & -> & _) (w & -> & _)
    |f n o s c es Hf (w & -> & _) Ho Ha Hc|f n o s c es Hf (w & -> & _) Ho Ha Hc|o s c es (w & -> & _) Ha Hc|b s (w & -> & _)|x s Hx Hp (w & -> & _)
    |k e s H IH Hk|k o l r s t u Hl IHl Ho Ht Hr IHr].
  - eexists _, _. split; [reflexivity|]. cbn. tauto.
  - destruct Hz as (ds & [Hd Hn] & [[-> _]|[-> _]] & _).
    + destruct ds as [|d ds]; [congruence|]. inv Hd. eexists _, _. split; [reflexivity|]. tauto.
    + eexists _, _. split; [reflexivity|]. cbn. tauto.
  - eexists _, _. split; [reflexivity|]. cbn. tauto.
  - destruct Hf as (c0 & t & -> & Hc0 & _). eexists _, _. split; [reflexivity|]. now left.
  - destruct Hf as (c0 & t & -> & Hc0 & _). eexists _, _. split; [reflexivity|]. now left.
  - eexists _, _. split; [reflexivity|]. cbn. tauto.
  - destruct b; eexists _, _; (split; [reflexivity|]); left; unfold letter_; cbn; lia.
  - destruct Hx as (c0 & t & -> & Hc0 & _). eexists _, _. split; [reflexivity|]. now left.
  - exact IH.
  - destruct IHl as (x & t0 & -> & Hx). eexists _, _. split; [reflexivity|exact Hx].
Qed.
Lemma hd_facts : forall x, letter_ x \/ digit x \/ In x [40; 34; 91; 45]%N -> ~ is_ws x /\ x <> 61%N /\ x <> 41%N /\ x <> 125%N.
Proof. intros x H. unfold letter_, digit in H. cbn in H. unfold is_ws. cbn. repeat split; intros; lia. Qed.
Lemma lev_solid : forall st k e s, lev st k e s -> solid s.
Proof. intros st k e s H. destruct (lev_hd H) as (x & t & -> & Hx). now apply hd_facts. Qed.

Section Complete.
Variable nd : N -> bool.
Hypothesis nd_ascii : forall x, (x < 128)%N -> (nd x = true <-> digit x).

(** ** Operators *)
Definition opp (k : nat) : parser N (expr -> expr -> expr) :=
  match k with
  | 0 => p_map_panic (p_or (t_sym (chr "*")) (t_sym (chr "/")))
           (fun c => if (c =? chr "*")%N then Some (EBin OMul) else if (c =? chr "/")%N then Some (EBin ODiv) else None)
  | 1 => p_map_panic (t_sym (chr "%")) (fun c => if (c =? chr "%")%N then Some (EBin OMod) else None)
  | 2 => p_map_panic (p_or (t_sym (chr "+")) (t_sym (chr "-")))
           (fun c => if (c =? chr "+")%N then Some (EBin OAdd) else if (c =? chr "-")%N then Some (EBin OSub) else None)
  | _ => comp_op
  end.
Definition nm (k : nat) : string := match k with 0 => "multitive" | 1 => "moditive" | 2 => "additive" | _ => "comparative" end.
Fixpoint levp (n k : nat) : parser N expr :=
  match k with
  | 0 => primary_of nd (expression_fuel nd n)
  | S k' => p_name (p_chain_left1 (levp n k') (opp k')) (nm k')
  end.
Lemma levp_expression : forall n, expression_fuel nd (S n) = p_name (levp n 4) "expression".
Proof. reflexivity. Qed.
Lemma a_tsym : forall c a s rest, ~ is_ws c -> ws a -> lx [c] s -> no_ws rest -> acc (t_sym c) (a ++ s) rest c.
Proof. intros c a s rest Hc Ha (w & -> & Hw) Hr. unfold t_sym. apply a_spaced; try assumption. apply a_elm_ref. Qed.
Lemma r_tsym : forall c a l, ws a -> no_ws l -> hd_ne c l -> rej (t_sym c) (a ++ l) false.
Proof. intros c a l Ha Hl H. unfold t_sym. apply r_spaced; try assumption. now apply r_elm_ref. Qed.
Lemma r_sym_tok : forall c c2 a s rest, c <> c2 -> ~ is_ws c2 -> ws a -> lx [c2] s -> rej (t_sym c) ((a ++ s) ++ rest) false.
Proof.
  intros c c2 a s rest Hc Hw Ha Hs. rewrite <- app_assoc. destruct (lx_hd Hs) as (r & ->). apply r_tsym; [exact Ha|exact Hw|]. cbn. congruence.
Qed.
Lemma a_op : forall k o a s rest, op_level o = k -> ws a -> lx (op_text o) s -> no_ws rest -> hd_ne 61%N rest -> acc (opp k) (a ++ s) rest (EBin o).
Proof.
  intros k o a s rest <- Ha Hs Hr He. assert (W : forall c, In c (bs "*/%+-&|<>=!") -> ~ is_ws c) by (intros c Hc K; cbn in Hc, K; lia).
  assert (G : forall v, v = op_text o -> acc (p_or (p_or (p_or (p_or (p_or (p_or (p_or
        (p_attempt (p_tag (bs "&&"))) (p_attempt (p_tag (bs "||")))) (p_attempt (p_tag (bs "<="))))
        (p_attempt (p_tag (bs ">=")))) (p_attempt (p_tag (bs "<")))) (p_attempt (p_tag (bs ">"))))
        (p_attempt (p_tag (bs "!=")))) (p_tag (bs "=="))) v (skipn (length v) s ++ rest) v -> op_level o = 3 -> acc (opp 3) (a ++ s) rest (EBin o)).
  { intros v -> H L. destruct Hs as (w & -> & Hw). unfold opp, comp_op. eapply a_map_panic with (v := op_text o).
    - apply a_spaced; try assumption.
      + destruct o; try discriminate; apply W; cbn; tauto.
      + rewrite skipn_app, skipn_all, Nat.sub_diag in H. exact H.
    - destruct o; try discriminate; reflexivity. }

  assert (T2 : forall c1 c2 o1 o2 f, c1 <> c2 -> ~ is_ws c1 -> ~ is_ws c2 -> op_text o1 = [c1] -> op_text o2 = [c2] -> f c1 = Some (EBin o1) -> f c2 = Some (EBin o2) -> o = o1 \/ o = o2 ->
    acc (p_map_panic (p_or (t_sym c1) (t_sym c2)) f) (a ++ s) rest (EBin o)).
  { intros c1 c2 o1 o2 f Hd H1 H2 E1 E2 F1 F2 [->| ->]; rewrite ?E1, ?E2 in Hs.
    - eapply a_map_panic; [|exact F1]. apply a_or1. now apply a_tsym.
    - eapply a_map_panic; [|exact F2]. apply a_or2; [now apply r_sym_tok with (c2 := c2)|]. now apply a_tsym. }
  assert (R2 : forall c d l, l <> [] -> match l with x :: _ => x <> d | [] => True end -> exists f, rej (p_tag [c; d]) (c :: l) f).
  { intros c d l Hl Hx. destruct (tag_cases [c; d] (c :: l)) as [[r E]|H]; [|exact H]. cbn in E. inv E. congruence. }
  assert (NE : forall c, lx [c] s -> forall r, skipn 1 s ++ rest = r -> hd_ne 61%N r).
  { intros c (w & -> & Hw) r <-. cbn. destruct w as [|y w]; [exact He|]. inversion Hw as [|? ? Hy _]; subst. cbn in Hy |- *. lia. }
  assert (TC : forall c d l, hd_ne d l -> rej (p_attempt (p_tag [c; d])) (c :: l) false).
  { intros c d l Hd. destruct (tag_cases [c; d] (c :: l)) as [[r E]|[f H]]; [|exact (r_attempt H)]. cbn in E. inv E. now cbn in Hd. }
  destruct o; cbn [op_level].
  - eapply a_map_panic; [apply a_tsym; try assumption; apply W; cbn; tauto|reflexivity].
  - apply T2 with (o1 := OAdd) (o2 := OSub); try reflexivity; try discriminate; try (apply W; cbn; tauto). now left.
  - apply T2 with (o1 := OAdd) (o2 := OSub); try reflexivity; try discriminate; try (apply W; cbn; tauto). now right.
  - apply T2 with (o1 := OMul) (o2 := ODiv); try reflexivity; try discriminate; try (apply W; cbn; tauto). now left.
  - apply T2 with (o1 := OMul) (o2 := ODiv); try reflexivity; try discriminate; try (apply W; cbn; tauto). now right.
  - apply (G _ eq_refl); [|reflexivity]. specialize (NE _ Hs _ eq_refl). do 3 apply a_or1. apply a_or2; [|apply a_attempt, a_tag].
    repeat apply r_or; try (eapply r_attempt, r_tag; discriminate). apply TC. exact NE.
  - apply (G _ eq_refl); [|reflexivity]. do 5 apply a_or1. apply a_or2; [|apply a_attempt, a_tag].
    repeat apply r_or; (eapply r_attempt, r_tag; discriminate).
  - apply (G _ eq_refl); [|reflexivity]. specialize (NE _ Hs _ eq_refl). do 2 apply a_or1. apply a_or2; [|apply a_attempt, a_tag].
    repeat apply r_or; try (eapply r_attempt, r_tag; discriminate). apply TC. exact NE.
  - apply (G _ eq_refl); [|reflexivity]. do 4 apply a_or1. apply a_or2; [|apply a_attempt, a_tag].
    repeat apply r_or; (eapply r_attempt, r_tag; discriminate).
  - apply (G _ eq_refl); [|reflexivity]. apply a_or2; [|apply a_tag].
    repeat apply r_or; (eapply r_attempt, r_tag; discriminate).
  - apply (G _ eq_refl); [|reflexivity]. apply a_or1. apply a_or2; [|apply a_attempt, a_tag].
    repeat apply r_or; (eapply r_attempt, r_tag; discriminate).
  - apply (G _ eq_refl); [|reflexivity]. do 7 apply a_or1. apply a_attempt, a_tag.
  - apply (G _ eq_refl); [|reflexivity]. do 6 apply a_or1. apply a_or2; [|apply a_attempt, a_tag].
    repeat apply r_or; (eapply r_attempt, r_tag; discriminate).
Qed.
Lemma r_op : forall k s w rest, k < 4 -> ws w -> fol (S k) s rest -> rej (opp k) (w ++ rest) false.
Proof.
  intros k s w rest Hk Hw H. pose proof (@fol_no_ws _ _ _ H) as Hn.
  assert (D : forall c, ~ In c (stops (S k)) -> c <> chr "t" -> hd_ne c rest).
  { intros c H1 H2. destruct rest as [|x r]; [exact I|]. cbn. intros ->. destruct H as [H|[H _]]; contradiction. }
  destruct k as [|[|[|[|k]]]]; [| | | |lia]; unfold opp; apply r_map_panic.
  - apply r_or; apply r_tsym; try assumption; apply D; cbn; lia.
  - apply r_tsym; try assumption; apply D; cbn; lia.
  - apply r_or; apply r_tsym; try assumption; apply D; cbn; lia.
  - apply r_spaced; [exact Hw|exact Hn|]. repeat apply r_or; try (eapply r_attempt); apply r_tag; apply D; cbn; lia.
Qed.

(** ** Alternatives of primary that do not apply *)
Definition hd_is_not (P : N -> Prop) (l : list N) : Prop := match l with [] => True | x :: _ => ~ P x end.
Lemma r_paren : forall p a l, ws a -> no_ws l -> hd_ne 40%N l -> rej (paren_expr p) (a ++ l) false.
Proof. intros p a l Ha Hl H. unfold paren_expr. apply r_map, r_skip_right1, r_skip_left1. now apply r_ttag. Qed.
Lemma r_int : forall a l, ws a -> no_ws l -> match l with [] => True | x :: _ => (x < 128)%N /\ x <> 45%N /\ ~ digit x end -> rej (t_integer nd) (a ++ l) false.
Proof.
  intros a l Ha Hl H. unfold t_integer. apply r_name, r_spaced; [exact Ha|exact Hl|]. apply r_map, r_map_res. intros pre. unfold p_regex. rewrite input_at.
  unfold failed_with_uncommitted. destruct l as [|x l]; [cbn; eauto|]. destruct H as (H1 & H2 & H3). unfold find_integer. destruct (N.eqb_spec x (chr "-")) as [E|_]; [now apply H2 in E|].
  cbn [span]. destruct (nd x) eqn:E; [apply nd_ascii in E; [contradiction|exact H1]|]. cbn. eauto.
Qed.
Lemma r_strlit : forall a l, ws a -> (a = [] -> hd_ne 34%N l) -> rej string_literal (a ++ l) false.
Proof.
  intros a l Ha H. unfold string_literal. apply r_name. eapply r_attempt, r_map, r_string. destruct a as [|y a]; [now apply H|].
  inversion Ha as [|? ? Hy _]; subst. cbn in Hy |- *. lia.
Qed.
Lemma r_fcall : forall p a l, ws a -> no_ws l -> hd_not ident_start l -> rej (function_call p) (a ++ l) false.
Proof.
  intros p a l Ha Hl H. unfold function_call. apply r_name. eapply r_attempt, r_spaced; [exact Ha|exact Hl|]. apply r_map, r_and1.
  change l with ([] ++ l). apply r_ident; [apply ws_nil|exact Hl|exact H].
Qed.
Lemma r_lcall : forall p a l, ws a -> no_ws l -> hd_not ident_start l -> rej (labelled_call p) (a ++ l) false.
Proof.
  intros p a l Ha Hl H. unfold labelled_call. apply r_name. eapply r_attempt, r_spaced; [exact Ha|exact Hl|]. apply r_map, r_and1.
  change l with ([] ++ l). apply r_ident; [apply ws_nil|exact Hl|exact H].
Qed.
Lemma r_fcall2 : forall p a x w l, ws a -> word x -> ws w -> no_ws l -> hd_not ident_char (w ++ l) -> hd_ne 40%N l -> rej (function_call p) (a ++ x ++ w ++ l) false.
Proof.
  intros p a x w l Ha Hx Hw Hl Hi H. unfold function_call. apply r_name. eapply r_attempt, r_spaced; [exact Ha|now apply solid_no_ws, word_solid|]. apply r_map.
  rewrite app_assoc. eapply r_and2; [apply (@a_ident x [] w l); try assumption; apply ws_nil|]. apply r_surround1. apply (@r_ttag _ _ [] l); [apply ws_nil|exact Hl|exact H].
Qed.
Lemma r_lcall2 : forall p a x w l, ws a -> word x -> ws w -> no_ws l -> hd_not ident_char (w ++ l) -> hd_ne 91%N l -> rej (labelled_call p) (a ++ x ++ w ++ l) false.
Proof.
  intros p a x w l Ha Hx Hw Hl Hi H. unfold labelled_call. apply r_name. eapply r_attempt, r_spaced; [exact Ha|now apply solid_no_ws, word_solid|]. apply r_map.
  rewrite app_assoc. eapply r_and2; [apply (@a_ident x [] w l); try assumption; apply ws_nil|]. apply r_surround1. apply (@r_ttag _ _ [] l); [apply ws_nil|exact Hl|exact H].
Qed.
Lemma r_arr : forall p a l, ws a -> no_ws l -> hd_ne 91%N l -> rej (array_literal p) (a ++ l) false.
Proof.
  intros p a l Ha Hl H. unfold array_literal. apply r_name, r_spaced; [exact Ha|exact Hl|]. apply r_map, r_surround1.
  apply (@r_ttag _ _ [] l); [apply ws_nil|exact Hl|exact H].
Qed.
Lemma r_boollit : forall a l, ws a -> no_ws l -> ~ begins (bs "true") l -> hd_ne 102%N l -> rej bool_literal (a ++ l) false.
Proof.
  intros a l Ha Hl H1 H2. unfold bool_literal. apply r_name, r_spaced; [exact Ha|exact Hl|]. apply r_map_panic, r_or; [|now apply r_tag].
  destruct (tag_cases (bs "true") l) as [[r ->]|[c H]]; [|exact (r_attempt H)]. exfalso. apply H1. now exists r.
Qed.
Lemma r_identifier : forall a l, ws a -> no_ws l -> hd_not ident_start l -> rej identifier (a ++ l) false.
Proof. intros a l Ha Hl H. unfold identifier. apply r_name, r_map. now apply r_ident. Qed.
Lemma letter_start : forall x, letter_ x -> ident_start x = true.
Proof. intros x H. now apply start_iff. Qed.
Lemma not_start : forall x, ~ letter_ x -> ident_start x = false.
Proof. intros x H. destruct (ident_start x) eqn:E; [apply start_iff in E; contradiction|reflexivity]. Qed.
(** Nothing that starts an expression. *)
Definition no_start (l : list N) : Prop := match l with [] => True | x :: _ => In x (bs ")]}{,;=") end.
Lemma no_start_no_ws : forall l, no_start l -> no_ws l.
Proof. intros [|x l] H; [exact I|]. cbn in H |- *. intros K. cbn in K. lia. Qed.
Lemma r_primary : forall p a l, ws a -> no_start l -> rej (primary_of nd p) (a ++ l) false.
Proof.
  intros p a l Ha H. pose proof (no_start_no_ws l H) as Hl. unfold primary_of. apply r_name.
  assert (D : forall c, ~ In c (bs ")]}{,;=") -> hd_ne c l) by (intros c Hc; destruct l as [|x l]; [exact I|]; cbn in *; intros ->; tauto).
  assert (S : hd_not ident_start l) by (destruct l as [|x l]; [exact I|]; apply not_start; unfold letter_; cbn in H; lia).
  repeat apply r_or.
  - apply r_paren; auto. apply D. cbn. lia.
  - apply r_int; auto. destruct l as [|x l]; [exact I|]. cbn in H. unfold digit. lia.
  - apply r_strlit; auto. intros _. apply D. cbn. lia.
  - now apply r_fcall.
  - now apply r_lcall.
  - apply r_arr; auto. apply D. cbn. lia.
  - apply r_boollit; auto; [|apply D; cbn; lia]. intros [r ->]. cbn in H. lia.
  - now apply r_identifier.
Qed.
Lemma r_levp : forall n k a l, ws a -> no_start l -> rej (levp n k) (a ++ l) false.
Proof. intros n k a l Ha H. induction k as [|k IH]; [now apply r_primary|]. now apply r_name, r_chain_left1. Qed.
Lemma r_expr : forall n a l, ws a -> no_start l -> rej (expression_fuel nd (S n)) (a ++ l) false.
Proof. intros n a l Ha H. rewrite levp_expression. apply r_name. now apply r_levp. Qed.

(** ** Levels *)
Definition accL (k : nat) (e : expr) (s : list N) : Prop :=
  forall n a rest, length s <= n -> lead a s -> fol k s rest -> exists s1 s2, s = s1 ++ s2 /\ ws s2 /\ solid s1 /\ acc (levp n k) (a ++ s1) (s2 ++ rest) e.
Definition chainL (k : nat) (e : expr) (s : list N) : Prop :=
  forall n a rest, length s <= n -> lead a s -> fol k s rest -> exists s1 s2, s = s1 ++ s2 /\ ws s2 /\ solid s1 /\
  forall tail r v, s2 ++ rest = tail ++ r -> acc (p_rest_left1 (levp n k) (opp k) e) tail r v -> acc (p_chain_left1 (levp n k) (opp k)) (a ++ s1 ++ tail) r v.
Lemma fol_S : forall k s rest, fol (S k) s rest -> fol k s rest.
Proof.
  intros k s [|x r] H; [exact I|]. destruct H as [H|H]; [left|now right]. destruct k as [|[|[|[|k]]]]; cbn in H |- *; tauto.
Qed.
Lemma chain_acc : forall k e s, k < 4 -> chainL k e s -> accL (S k) e s.
Proof.
  intros k e s Hk H n a rest L Hl Hf. destruct (H n a rest L Hl (@fol_S _ _ _ Hf)) as (s1 & s2 & -> & Hs2 & Hs1 & C).
  exists s1, s2. repeat split; try assumption. cbn [levp]. apply a_name. specialize (C [] (s2 ++ rest) e eq_refl). rewrite app_nil_r in C. apply C.
  apply a_rest_nil. eapply r_op; eassumption.
Qed.
Lemma acc_chain : forall k e s, accL k e s -> chainL k e s.
Proof.
  intros k e s H n a rest L Hl Hf. destruct (H n a rest L Hl Hf) as (s1 & s2 & -> & Hs2 & Hs1 & C).
  exists s1, s2. repeat split; try assumption. intros tail r v E Ht. rewrite app_assoc. eapply a_chain_left1; [|exact Ht]. now rewrite <- E.
Qed.
Lemma op_solid : forall o, solid (op_text o).
Proof. intros []; cbn; lia. Qed.
Lemma op_stops : forall o k x t, op_level o = k -> op_text o = x :: t -> In x (stops k).
Proof. intros o k x t <- E. destruct o; inv E; cbn; tauto. Qed.
Lemma op_fol : forall o k s t u, op_level o = k -> lx (op_text o) t -> fol k s (t ++ u).
Proof.
  intros o k s t u Ho (w & -> & _). destruct (op_text o) as [|x t] eqn:E; [now apply op_text_ne in E|]. left. now apply op_stops with (o := o) (t := t).
Qed.
Lemma solid_ne : forall s, solid s -> s <> [].
Proof. intros [|x s] H; [destruct H|discriminate]. Qed.
Lemma lead_app : forall a s t, s <> [] -> lead a (s ++ t) -> lead a s.
Proof. intros a s t Hs [Ha H]. split; [exact Ha|]. intros Hn. rewrite <- begins_app with (t := t) by exact Hs. now apply H. Qed.
Lemma chain_bin : forall k o l r s t u, op_level o = k -> chainL k l s -> lx (op_text o) t -> accL k r u -> lev true (S k) l s -> lev true k r u ->
  chainL k (EBin o l r) (s ++ t ++ u).
Proof.
  intros k o l r s t u Ho Hl Ht Hr Gl Gr n a rest L Hle Hf. rewrite !app_length in L.
  assert (Us : solid u) by now apply lev_solid in Gr.
  destruct (Hr n [] rest) as (u1 & u2 & -> & Hu2 & Hu1 & C2); [lia|apply lead_nil|rewrite app_assoc in Hf; eapply fol_app; [now apply solid_ne|exact Hf]|].
  destruct (Hl n a (t ++ (u1 ++ u2) ++ rest)) as (s1 & s2 & -> & Hs2 & Hs1 & C1); [lia| |now apply op_fol with (o := o)|].
  { eapply lead_app; [|exact Hle]. apply solid_ne. now apply lev_solid in Gl. }
  exists (s1 ++ s2 ++ t ++ u1), u2. split; [now rewrite <- !app_assoc|]. split; [exact Hu2|]. split; [now apply solid_app|].
  intros tail r0 v E Hv.
  replace (a ++ (s1 ++ s2 ++ t ++ u1) ++ tail) with (a ++ s1 ++ ((s2 ++ t) ++ u1 ++ tail)) by now rewrite <- !app_assoc.
  apply C1; [rewrite <- !app_assoc, E; reflexivity|].
  eapply a_rest_cons.
  - apply a_op with (o := o); try assumption; [now apply solid_no_ws|]. destruct (lev_hd Gr) as (x & y & Ex & Hx). apply hd_facts in Hx.
    destruct u1 as [|z u1]; [destruct Hu1|]. cbn in Ex |- *. inv Ex. tauto.
  - rewrite <- E. exact C2.
  - exact Hv.
  - apply lx_ne in Ht; [|apply op_text_ne]. destruct s2; [exact Ht|discriminate].
Qed.
(** ** Lists *)
Definition close (l : list N) : Prop := match l with [] => False | x :: _ => x = 41%N \/ x = 93%N end.
Lemma close_no_start : forall l, close l -> no_start l.
Proof. intros [|x l] H; [destruct H|]. cbn in H |- *. lia. Qed.
Lemma close_no_ws : forall l, close l -> no_ws l.
Proof. intros l H. now apply no_start_no_ws, close_no_start. Qed.
Definition tailok {A} (p : parser N A) (vs : list A) (t r : list N) : Prop :=
  schain p comma t r vs \/ exists t0 d, t = t0 ++ d /\ schain p comma t0 (d ++ r) vs /\ acc comma d r (bs ",").
Lemma tail_cons : forall A (p : parser N A) d s t r w v vs, acc comma d (s ++ t ++ r) w -> acc p s (t ++ r) v -> s <> [] -> tailok p vs t r -> tailok p (v :: vs) (d ++ s ++ t) r.
Proof.
  intros A p d s t r w v vs Hd Hs Hn [H|(t0 & d0 & -> & H1 & H2)].
  - left. eapply schain_cons; try eassumption. destruct d; [exact Hn|discriminate].
  - right. exists (d ++ s ++ t0), d0. split; [now rewrite <- !app_assoc|]. split; [|exact H2]. eapply schain_cons; [| | |exact H1].
    + rewrite <- app_assoc in Hd. exact Hd.
    + rewrite <- app_assoc in Hs. exact Hs.
    + destruct d; [exact Hn|discriminate].
Qed.
Lemma a_comma : forall a c rest, ws a -> lx (bs ",") c -> no_ws rest -> acc comma (a ++ c) rest (bs ",").
Proof. intros a c rest Ha Hc Hr. apply a_ttag; try assumption. cbn. lia. Qed.
Lemma a_list : forall A (p : parser N A) min s t w rest v vs c, acc p s (t ++ w ++ rest) v -> tailok p vs t (w ++ rest) -> ws w -> close rest -> rej p (w ++ rest) c -> min <= 1 ->
  acc (p_repeat_sep p (rg_from min) (Some comma)) (s ++ t) (w ++ rest) (v :: vs).
Proof.
  intros A p min s t w rest v vs c Hs [H|(t0 & d & -> & H1 & H2)] Hw Hc Hr Hm.
  - eapply a_repeat_sep; [exact Hs|exact H| |lia]. apply r_ttag; [exact Hw|now apply close_no_ws|]. destruct rest as [|x r]; [destruct Hc|]. cbn in Hc |- *. lia.
  - eapply a_repeat_sep_dangling; [|exact H1|exact H2|exact Hr|lia]. rewrite <- app_assoc in Hs. exact Hs.
Qed.
Notation E n := (p_lazy (fun _ : unit => expression_fuel nd n)).
Definition args_ok (es : list expr) (s : list N) : Prop := forall n rest, length s < n -> close rest ->
  es = [] /\ s = [] \/ exists v vs i t w, es = v :: vs /\ s = i ++ t ++ w /\ ws w /\ solid i /\ acc (E n) i (t ++ w ++ rest) v /\ tailok (E n) vs t (w ++ rest).
Definition more_args_ok (es : list expr) (s : list N) : Prop := forall n b rest, length s < n -> ws b -> close rest ->
  exists t w, b ++ s = t ++ w /\ ws w /\ tailok (E n) es t (w ++ rest).
Definition params_ok (ps : list (name * expr)) (s : list N) : Prop := forall n rest, length s < n -> close rest ->
  exists v vs i t w, ps = v :: vs /\ s = i ++ t ++ w /\ ws w /\ solid i /\ acc (param (expression_fuel nd n)) i (t ++ w ++ rest) v /\ tailok (param (expression_fuel nd n)) vs t (w ++ rest).
Definition more_params_ok (ps : list (name * expr)) (s : list N) : Prop := forall n b rest, length s < n -> ws b -> close rest ->
  exists t w, b ++ s = t ++ w /\ ws w /\ tailok (param (expression_fuel nd n)) ps t (w ++ rest).
Lemma acc_expr : forall e s, accL 4 e s -> forall n a rest, length s < n -> lead a s -> fol 4 s rest ->
  exists s1 s2, s = s1 ++ s2 /\ ws s2 /\ solid s1 /\ acc (expression_fuel nd n) (a ++ s1) (s2 ++ rest) e.
Proof.
  intros e s H [|n] a rest L Hl Hf; [lia|]. destruct (H n a rest ltac:(lia) Hl Hf) as (s1 & s2 & -> & H2 & H1 & C). exists s1, s2.
  repeat split; try assumption. rewrite levp_expression. now apply a_name.
Qed.
Lemma more_fol : forall es s t rest, more_args true es t -> close rest -> fol 4 s (t ++ rest).
Proof.
  intros es s t rest H Hc. destruct H as [|c (w & -> & _)|c e es s0 t (w & -> & _)].
  - destruct rest as [|x r]; [exact I|]. left. cbn in Hc |- *. lia.
  - left. cbn. tauto.
  - left. cbn. tauto.
Qed.
Lemma morep_fol : forall ps s t rest, more_params true ps t -> close rest -> fol 4 s (t ++ rest).
Proof.
  intros ps s t rest H Hc. destruct H as [|c (w & -> & _)|c ps s0 (w & -> & _)].
  - destruct rest as [|x r]; [exact I|]. left. cbn in Hc |- *. lia.
  - left. cbn. tauto.
  - left. cbn. tauto.
Qed.
Lemma ok_a_some : forall e es s t, accL 4 e s -> more_args true es t -> more_args_ok es t -> args_ok (e :: es) (s ++ t).
Proof.
  intros e es s t He G Hm n rest L Hc. right. rewrite app_length in L.
  destruct (acc_expr He) with (n := n) (a := @nil N) (rest := t ++ rest) as (s1 & s2 & -> & W2 & S1 & C); [lia|apply lead_nil|now apply more_fol with (es := es)|].
  destruct (Hm n s2 rest) as (t1 & w & Et & Hw & Ht); [rewrite app_length in L; lia|exact W2|exact Hc|].
  exists e, es, s1, t1, w. repeat split; try assumption.
  - now rewrite <- app_assoc, Et.
  - apply a_lazy. rewrite app_assoc, <- Et, <- app_assoc. exact C.
Qed.
Lemma ok_ma_end : more_args_ok [] [].
Proof. intros n b rest L Hb Hc. exists [], b. rewrite app_nil_r. repeat split; [exact Hb|]. left. constructor. Qed.
Lemma ok_ma_comma : forall c, lx (bs ",") c -> more_args_ok [] c.
Proof.
  intros c Hc n b rest L Hb Hr. exists (b ++ c), []. rewrite app_nil_r. split; [reflexivity|]. split; [apply ws_nil|]. right. exists [], (b ++ c).
  split; [reflexivity|]. split; [constructor|]. apply a_comma; try assumption. now apply close_no_ws.
Qed.
Lemma ok_ma_more : forall c e es s t, lx (bs ",") c -> accL 4 e s -> more_args true es t -> more_args_ok es t -> more_args_ok (e :: es) (c ++ s ++ t).
Proof.
  intros c e es s t Hc He G Hm n b rest L Hb Hr. rewrite !app_length in L.
  destruct (acc_expr He) with (n := n) (a := @nil N) (rest := t ++ rest) as (s1 & s2 & -> & W2 & S1 & C); [lia|apply lead_nil|now apply more_fol with (es := es)|].
  destruct (Hm n s2 rest) as (t1 & w & Et & Hw & Ht); [rewrite app_length in L; lia|exact W2|exact Hr|].
  exists ((b ++ c) ++ s1 ++ t1), w. split; [|split; [exact Hw|]].
  - rewrite <- !app_assoc. now rewrite Et.
  - eapply tail_cons; [apply a_comma; [exact Hb|exact Hc|now apply solid_no_ws]| |now apply solid_ne|exact Ht].
    apply a_lazy. rewrite app_assoc, <- Et, <- app_assoc. exact C.
Qed.
Lemma ok_p_some : forall x nn w e s ps t, word x -> lx x nn -> ws w -> (w <> [] -> ~ begins [34%N] s) -> accL 4 e s -> more_params true ps t -> more_params_ok ps t ->
  params_ok ((x, e) :: ps) (nn ++ bs "=" ++ w ++ s ++ t).
Proof.
  intros x nn w e s ps t Hx (wn & -> & Hwn) Hw Hq He G Hm n rest L Hc. rewrite !app_length in L.
  destruct (acc_expr He) with (n := n) (a := w) (rest := t ++ rest) as (s1 & s2 & -> & W2 & S1 & C); [lia|now split|now apply morep_fol with (ps := ps)|].
  destruct (Hm n s2 rest) as (t1 & w' & Et & Hw' & Ht); [rewrite app_length in L; lia|exact W2|exact Hc|].
  exists (x, e), ps, ((x ++ wn) ++ bs "=" ++ w ++ s1), t1, w'. split; [reflexivity|]. split; [|split; [|split; [|split]]].
  - rewrite <- !app_assoc. now rewrite Et.
  - exact Hw'.
  - rewrite <- app_assoc. apply solid_app. now apply word_solid.
  - unfold param. apply a_map_eq with (v := (x, e)); [|reflexivity]. rewrite app_assoc. eapply a_and.
    + eapply a_skip_right; [|apply a_elm_ref]. apply (@a_ident x [] wn); try assumption; [apply ws_nil|cbn; lia|]. apply ws_not_ident; [exact Hwn|reflexivity].
    + apply a_lazy. rewrite (app_assoc t1), <- Et, <- app_assoc. exact C.
  - exact Ht.
Qed.
Lemma ok_mp_end : more_params_ok [] [].
Proof. intros n b rest L Hb Hc. exists [], b. rewrite app_nil_r. repeat split; [exact Hb|]. left. constructor. Qed.
Lemma ok_mp_comma : forall c, lx (bs ",") c -> more_params_ok [] c.
Proof.
  intros c Hc n b rest L Hb Hr. exists (b ++ c), []. rewrite app_nil_r. split; [reflexivity|]. split; [apply ws_nil|]. right. exists [], (b ++ c).
  split; [reflexivity|]. split; [constructor|]. apply a_comma; try assumption. now apply close_no_ws.
Qed.
Lemma ok_mp_more : forall c ps s, lx (bs ",") c -> params_ok ps s -> more_params_ok ps (c ++ s).
Proof.
  intros c ps s Hc Hp n b rest L Hb Hr. rewrite app_length in L.
  destruct (Hp n rest) as (v & vs & i & t & w & -> & -> & Hw & Hi & C & T); [lia|exact Hr|].
  exists ((b ++ c) ++ i ++ t), w. split; [now rewrite <- !app_assoc|]. split; [exact Hw|].
  eapply tail_cons; [apply a_comma; [exact Hb|exact Hc|now apply solid_no_ws]|exact C|now apply solid_ne|exact T].
Qed.
Lemma close_bracket : forall x s r, x = 41%N \/ x = 93%N -> lx [x] s -> close (s ++ r).
Proof. intros x s r Hx (w & -> & _). exact Hx. Qed.
Lemma a_args : forall n ob cb o s c es rest, ~ is_ws ob -> cb = 41%N \/ cb = 93%N -> lx [ob] o -> args_ok es s -> lx [cb] c -> no_ws rest -> length s < n ->
  acc (p_surround (t_tag [ob]) (p_many0_sep (E n) comma) (t_tag [cb])) (o ++ s ++ c) rest es.
Proof.
  intros n ob cb o s c es rest Hob Hcb Ho Hs Hc Hr L. assert (CR : close (c ++ rest)) by now apply close_bracket with (x := cb).
  assert (Sc : solid [cb]) by (destruct Hcb as [->| ->]; cbn; lia).
  destruct n as [|n]; [lia|].
  destruct (Hs (S n) (c ++ rest) L CR) as [[-> ->]|(v & vs & i & t & w & -> & -> & Hw & Hi & C & T)].
  - eapply a_surround; [apply a_ttag0; [exact Hob|exact Ho|]|eapply a_repeat_sep_none, r_lazy|apply a_ttag0; assumption].
    + cbn [app]. now apply close_no_ws.
    + apply (@r_expr n [] (c ++ rest)); [apply ws_nil|now apply close_no_start].
  - replace (o ++ (i ++ t ++ w) ++ c) with (o ++ (i ++ t) ++ (w ++ c)) by now rewrite <- !app_assoc.
    eapply a_surround; [apply a_ttag0; [exact Hob|exact Ho|]| |apply a_ttag; try assumption].
    + rewrite <- app_assoc. now apply solid_no_ws.
    + rewrite <- app_assoc. eapply a_list; [exact C|exact T|exact Hw|exact CR| |lia]. apply r_lazy. apply r_expr; [exact Hw|now apply close_no_start].
Qed.
Lemma r_param : forall p a l, ws a -> close l -> rej (param p) (a ++ l) false.
Proof.
  intros p a l Ha Hc. unfold param. apply r_map, r_and1, r_skip_right1. apply r_ident; [exact Ha|now apply close_no_ws|].
  destruct l as [|x l]; [exact I|]. apply not_start. unfold letter_. cbn in Hc. lia.
Qed.
Lemma a_params : forall n o s c ps rest, lx (bs "[") o -> params_ok ps s -> lx (bs "]") c -> no_ws rest -> length s < n ->
  acc (p_surround lbracket (p_many1_sep (param (expression_fuel nd n)) comma) rbracket) (o ++ s ++ c) rest ps.
Proof.
  intros n o s c ps rest Ho Hs Hc Hr L. assert (CR : close (c ++ rest)) by (apply close_bracket with (x := 93%N); auto).
  destruct (Hs n (c ++ rest) L CR) as (v & vs & i & t & w & -> & -> & Hw & Hi & C & T).
  replace (o ++ (i ++ t ++ w) ++ c) with (o ++ (i ++ t) ++ (w ++ c)) by now rewrite <- !app_assoc.
  eapply a_surround; [apply a_ttag0; [cbn; lia|exact Ho|]| |apply a_ttag; try assumption; cbn; lia].
  - rewrite <- app_assoc. now apply solid_no_ws.
  - rewrite <- app_assoc. eapply a_list; [exact C|exact T|exact Hw|exact CR| |lia]. now apply r_param.
Qed.
(** ** Primaries *)
Lemma whole : forall n k a s rest e, solid s -> acc (levp n k) (a ++ s) rest e -> exists s1 s2, s = s1 ++ s2 /\ ws s2 /\ solid s1 /\ acc (levp n k) (a ++ s1) (s2 ++ rest) e.
Proof. intros n k a s rest e Hs H. exists s, []. rewrite app_nil_r. repeat split; [apply ws_nil|exact Hs|exact H]. Qed.
Lemma ok_paren : forall e o s c, lx (bs "(") o -> accL 4 e s -> lev true 4 e s -> lx (bs ")") c -> accL 0 (EParen e) (o ++ s ++ c).
Proof.
  intros e o s c Ho He G Hc n a rest L [Ha _] Hf. pose proof (@fol_no_ws _ _ _ Hf) as Hr. apply whole; [now apply solid_app, lx_solid with (t := bs "("); [cbn; lia|]|].
  rewrite !app_length in L. assert (0 < length o) by (destruct Ho as (w & -> & _); cbn; lia).
  destruct (acc_expr He) with (n := n) (a := @nil N) (rest := c ++ rest) as (s1 & s2 & -> & W2 & S1 & C); [lia|apply lead_nil| |].
  { destruct (lx_hd Hc) as (r & ->). left. cbn. tauto. }
  cbn [levp]. unfold primary_of. apply a_name. do 7 apply a_or1. unfold paren_expr. apply a_map.
  replace (a ++ o ++ (s1 ++ s2) ++ c) with (((a ++ o) ++ s1) ++ (s2 ++ c)) by now rewrite <- !app_assoc.
  eapply a_skip_right; [eapply a_skip_left|].
  - apply a_ttag; try assumption; [cbn; lia|]. now apply solid_no_ws.
  - apply a_lazy. rewrite <- app_assoc. exact C.
  - apply a_ttag; try assumption. cbn. lia.
Qed.
Lemma word_hd : forall x r, word x -> exists c t, x ++ r = c :: t /\ letter_ c.
Proof. intros x r (c & t & -> & Hc & _). exists c, (t ++ r). now split. Qed.
Lemma letter_facts : forall c, letter_ c -> c <> 40%N /\ c <> 34%N /\ c <> 91%N /\ (c < 128)%N /\ c <> 45%N /\ ~ digit c.
Proof. intros c H. unfold letter_ in H. unfold digit. lia. Qed.
Lemma r_before_word : forall p a l c t, ws a -> l = c :: t -> letter_ c -> rej (p_or (p_or (paren_expr p) (t_integer nd)) string_literal) (a ++ l) false.
Proof.
  intros p a l c t Ha -> Hc. pose proof (letter_facts Hc) as F. assert (Hn : no_ws (c :: t)) by now apply letter_not_ws.
  repeat apply r_or.
  - apply r_paren; auto. cbn. tauto.
  - apply r_int; auto. tauto.
  - apply r_strlit; auto. intros _. cbn. tauto.
Qed.
Lemma parse_int : forall z t, int_text z t -> parse_i64 t = inl z.
Proof.
  intros z t (ds & [Hd Hn] & H & B). unfold parse_i64.
  assert (F : forallb is_ascii_digit ds = true).
  { rewrite forallb_forall. intros x Hx. rewrite Forall_forall in Hd. now apply dig_iff, Hd. }
  assert (Bi : in_i64 z = true) by (unfold in_i64, i64_min, i64_max; rewrite andb_true_iff, !Z.leb_le; exact B).
  destruct ds as [|d ds]; [congruence|].
  destruct H as [[-> ->]|[-> ->]].
  - inversion Hd as [|? ? Hx _]; subst. destruct (N.eqb_spec d (chr "-")) as [->|_]; [unfold digit in Hx; cbn in Hx; lia|].
    destruct (N.eqb_spec d (chr "+")) as [->|_]; [unfold digit in Hx; cbn in Hx; lia|]. rewrite F, Bi. reflexivity.
  - cbn [bs app]. change (chr "-" :: d :: ds) with (chr "-" :: (d :: ds)). rewrite N.eqb_refl, F, Bi. reflexivity.
Qed.
Lemma find_int : forall z t rest, int_text z t -> hd_not nd rest -> find_integer nd (t ++ rest) = Some t.
Proof.
  intros z t rest (ds & [Hd Hn] & H & B) Hr.
  assert (F : forallb nd ds = true).
  { rewrite forallb_forall. intros x Hx. rewrite Forall_forall in Hd. specialize (Hd x Hx). apply nd_ascii; [unfold digit in Hd; lia|exact Hd]. }
  destruct ds as [|d ds]; [congruence|]. destruct H as [[-> _]|[-> _]].
  - inversion Hd as [|? ? Hx _]; subst. unfold find_integer. cbn [app]. destruct (N.eqb_spec d (chr "-")) as [->|_]; [unfold digit in Hx; cbn in Hx; lia|].
    change (d :: ds ++ rest) with ((d :: ds) ++ rest). rewrite span_app by assumption. reflexivity.
  - unfold find_integer. change ((bs "-" ++ d :: ds) ++ rest) with (chr "-" :: ((d :: ds) ++ rest)). cbv iota. rewrite N.eqb_refl, span_app by assumption. reflexivity.
Qed.
Lemma int_ascii : forall z t, int_text z t -> forall x, In x t -> (x < 128)%N.
Proof.
  intros z t (ds & [Hd Hn] & H & B) x Hx. rewrite Forall_forall in Hd.
  assert (D : In x ds -> (x < 128)%N) by (intros K; specialize (Hd x K); unfold digit in Hd; lia).
  destruct H as [[-> _]|[-> _]]; [auto|]. destruct Hx as [<-|Hx]; [reflexivity|auto].
Qed.
Lemma int_hd : forall z t r, int_text z t -> exists c u, t ++ r = c :: u /\ (c = 45%N \/ digit c).
Proof.
  intros z t r (ds & [Hd Hn] & H & B). destruct ds as [|d ds]; [congruence|]. inversion Hd as [|? ? Hx _]; subst.
  destruct H as [[-> _]|[-> _]]; eexists _, _; (split; [reflexivity|]); auto.
Qed.
Lemma ok_int : forall z t s, int_text z t -> lx t s -> accL 0 (EInt z) s.
Proof.
  intros z t s Hz (w & -> & Hw) n a rest L [Ha _] Hf. pose proof (@fol_no_ws _ _ _ Hf) as Hr. destruct (int_hd [] Hz) as (c & u & Ec & Hc). rewrite app_nil_r in Ec.
  assert (St : solid t) by (rewrite Ec; cbn; unfold digit in Hc; lia).
  assert (K : hd_not nd (w ++ rest)).
  { destruct w as [|y w].
    - destruct rest as [|x r]; [exact I|]. assert (K : In x (stops 0) \/ x = chr "t") by (destruct Hf as [H|[H _]]; auto). apply stop_facts in K. cbn.
      destruct (nd x) eqn:En; [|reflexivity]. apply nd_ascii in En; tauto.
    - inversion Hw as [|? ? Hy _]; subst. cbn. destruct (nd y) eqn:En; [|reflexivity]. apply nd_ascii in En; [|cbn in Hy; lia]. unfold digit in En. cbn in Hy. lia. }
  apply whole; [now apply solid_app|]. cbn [levp]. unfold primary_of. apply a_name. do 6 apply a_or1. apply a_or2.
  - rewrite <- !app_assoc. rewrite Ec. cbn [app]. apply r_paren; [exact Ha| |]; cbn; unfold digit in Hc; lia.
  - unfold t_integer. apply a_name, a_spaced; try assumption. apply a_map. eapply a_map_res; [|exact (parse_int Hz)].
    intros pre. unfold p_regex. rewrite input_at. rewrite (@find_int z t _ Hz K). f_equal. apply utf8_len_ascii. exact (int_ascii Hz).
Qed.
Lemma ok_str : forall v t s, g_string false false v t -> lx t s -> accL 0 (EString v) s.
Proof.
  intros v t s Hv (w & -> & Hw) n a rest L [Ha Hq] Hf. assert (Q : exists u, t = 34%N :: u) by (destruct Hv as (is & _ & -> & _); eexists; reflexivity).
  destruct Q as (u & Eu).
  assert (a = []) as ->. { destruct a as [|y a]; [reflexivity|]. exfalso. apply Hq; [discriminate|]. exists (u ++ w). now rewrite Eu. }
  exists t, w. split; [reflexivity|]. split; [exact Hw|]. split; [rewrite Eu; cbn; lia|].
  cbn [levp]. unfold primary_of. apply a_name. do 5 apply a_or1. apply a_or2.
  - cbn [app]. rewrite Eu. cbn [app]. apply r_or.
    + apply (@r_paren _ [] (34%N :: u ++ w ++ rest)); [apply ws_nil|cbn; lia|cbn; lia].
    + apply (@r_int [] (34%N :: u ++ w ++ rest)); [apply ws_nil|cbn; lia|]. unfold digit. lia.
  - unfold string_literal. apply a_name, a_attempt, a_map. now apply a_string.
Qed.
Lemma ok_call : forall f nn o s c es, word f -> lx f nn -> lx (bs "(") o -> args_ok es s -> lx (bs ")") c -> accL 0 (ECall f es) (nn ++ o ++ s ++ c).
Proof.
  intros f nn o s c es Hf (w & -> & Hw) Ho Hs Hc n a rest L [Ha _] Hfo. pose proof (@fol_no_ws _ _ _ Hfo) as Hr.
  assert (Sx : solid ((f ++ w) ++ o ++ s ++ c)) by (rewrite <- app_assoc; now apply solid_app, word_solid).
  apply whole; [exact Sx|]. rewrite !app_length in L. assert (0 < length f) by (destruct Hf as (? & ? & -> & _); cbn; lia).
  cbn [levp]. unfold primary_of. apply a_name. do 4 apply a_or1. apply a_or2.
  - destruct (word_hd ((w ++ o ++ s ++ c) ++ rest) Hf) as (c0 & t & E0 & H0). rewrite <- !app_assoc in E0. rewrite <- !app_assoc. exact (@r_before_word _ _ _ _ _ Ha E0 H0).
  - unfold function_call. apply a_name, a_attempt. rewrite <- (app_nil_r ((f ++ w) ++ o ++ s ++ c)). apply a_spaced; try assumption; [apply ws_nil|].
    apply a_map_eq with (v := (f, es)); [|reflexivity]. eapply a_and.
    + apply (@a_ident f [] w); try assumption; [apply ws_nil| |].
      * destruct (lx_hd Ho) as (r & ->). cbn. lia.
      * apply ws_not_ident; [exact Hw|]. intros _. destruct (lx_hd Ho) as (r & ->). reflexivity.
    + apply a_args; try assumption; [cbn; lia|now left|lia].
Qed.
Lemma ok_labelled : forall f nn o s c ps, word f -> lx f nn -> lx (bs "[") o -> params_ok ps s -> lx (bs "]") c -> accL 0 (ELabelled f ps) (nn ++ o ++ s ++ c).
Proof.
  intros f nn o s c ps Hf (w & -> & Hw) Ho Hs Hc n a rest L [Ha _] Hfo. pose proof (@fol_no_ws _ _ _ Hfo) as Hr.
  assert (Sx : solid ((f ++ w) ++ o ++ s ++ c)) by (rewrite <- app_assoc; now apply solid_app, word_solid).
  apply whole; [exact Sx|]. rewrite !app_length in L. assert (0 < length f) by (destruct Hf as (? & ? & -> & _); cbn; lia).
  assert (No : no_ws (o ++ s ++ c ++ rest) /\ hd_ne 40%N (o ++ s ++ c ++ rest) /\ hd_not ident_char (w ++ o ++ s ++ c ++ rest)).
  { destruct (lx_hd Ho) as (r & ->). repeat split; [cbn; lia|cbn; lia|]. apply ws_not_ident; [exact Hw|reflexivity]. }
  destruct No as (N1 & N2 & N3).
  cbn [levp]. unfold primary_of. apply a_name. do 3 apply a_or1. apply a_or2; [apply r_or|].
  - destruct (word_hd ((w ++ o ++ s ++ c) ++ rest) Hf) as (c0 & t & E0 & H0). rewrite <- !app_assoc in E0. rewrite <- !app_assoc. exact (@r_before_word _ _ _ _ _ Ha E0 H0).
  - rewrite <- !app_assoc. now apply r_fcall2.
  - unfold labelled_call. apply a_name, a_attempt. rewrite <- (app_nil_r ((f ++ w) ++ o ++ s ++ c)). apply a_spaced; try assumption; [apply ws_nil|].
    apply a_map_eq with (v := (f, ps)); [|reflexivity]. eapply a_and.
    + apply (@a_ident f [] w); try assumption; [apply ws_nil| |]; rewrite <- !app_assoc; assumption.
    + apply a_params; try assumption. lia.
Qed.
Lemma ok_array : forall o s c es, lx (bs "[") o -> args_ok es s -> lx (bs "]") c -> accL 0 (EArray es) (o ++ s ++ c).
Proof.
  intros o s c es Ho Hs Hc n a rest L [Ha _] Hfo. pose proof (@fol_no_ws _ _ _ Hfo) as Hr.
  assert (Sx : solid (o ++ s ++ c)) by (apply solid_app; eapply lx_solid; [|exact Ho]; cbn; lia).
  apply whole; [exact Sx|]. rewrite !app_length in L. destruct (lx_hd Ho) as (r & Er). assert (0 < length o) by (rewrite Er; cbn; lia).
  cbn [levp]. unfold primary_of. apply a_name. do 2 apply a_or1. apply a_or2.
  - rewrite <- !app_assoc. rewrite Er. cbn [app]. assert (Hn : no_ws (91%N :: r ++ s ++ c ++ rest)) by (cbn; lia). repeat apply r_or.
    + apply r_paren; auto. cbn. lia.
    + apply r_int; auto. unfold digit. cbn. lia.
    + apply r_strlit; auto. intros _. cbn. lia.
    + apply r_fcall; auto; try (cbn; reflexivity).
    + apply r_lcall; auto; try (cbn; reflexivity).
  - unfold array_literal. apply a_name. rewrite <- (app_nil_r (o ++ s ++ c)). apply a_spaced; try assumption; [apply ws_nil|].
    apply a_map. apply a_args; try assumption; [cbn; lia|now right|lia].
Qed.
Lemma r_before_bool : forall p a x w rest, ws a -> word x -> ws w -> fol 0 (x ++ w) rest ->
  rej (p_or (p_or (p_or (p_or (p_or (paren_expr p) (t_integer nd)) string_literal) (function_call p)) (labelled_call p)) (array_literal p)) ((a ++ x ++ w) ++ rest) false.
Proof.
  intros p a x w rest Ha Hx Hw Hf. pose proof (@fol_no_ws _ _ _ Hf) as Hr. rewrite <- !app_assoc.
  pose proof (@fol_ident x w rest Hx Hw Hf) as Hi. destruct (word_hd (w ++ rest) Hx) as (c & t & E & Hc).
  apply r_or; [apply r_or; [apply r_or|]|].
  - eapply r_before_word; eassumption.
  - apply r_fcall2; try assumption. eapply fol_ne; [exact Hf|now left].
  - apply r_lcall2; try assumption. eapply fol_ne; [exact Hf|now right].
  - rewrite E. apply r_arr; [exact Ha|now apply letter_not_ws|]. cbn. apply letter_facts in Hc. tauto.
Qed.
Lemma bool_word : forall b, word (bool_text b).
Proof.
  intros []; eexists _, _; (split; [reflexivity|]); (split; [now apply start_iff|]); repeat (apply Forall_cons; [now apply ichar_iff|]); apply Forall_nil.
Qed.
Lemma ok_bool : forall b s, lx (bool_text b) s -> accL 0 (EBool b) s.
Proof.
  intros b s (w & -> & Hw) n a rest L [Ha _] Hf. pose proof (@fol_no_ws _ _ _ Hf) as Hr. apply whole; [apply solid_app, word_solid, bool_word|].
  cbn [levp]. unfold primary_of. apply a_name. apply a_or1, a_or2; [apply r_before_bool; try assumption; apply bool_word|].
  unfold bool_literal. apply a_name, a_spaced; try assumption; [apply word_solid, bool_word|]. eapply a_map_panic with (v := bool_text b); [|now destruct b].
  destruct b.
  - apply a_or1, a_attempt, a_tag.
  - apply a_or2; [|apply a_tag]. eapply r_attempt, r_tag. discriminate.
Qed.
Lemma ok_sym : forall x s, word x -> plain_name x -> lx x s -> accL 0 (ESymbol x) s.
Proof.
  intros x s Hx [Pf Pt] (w & -> & Hw) n a rest L [Ha _] Hf. pose proof (@fol_no_ws _ _ _ Hf) as Hr. apply whole; [now apply solid_app, word_solid|].
  pose proof (@fol_ident x w rest Hx Hw Hf) as Hi.
  cbn [levp]. unfold primary_of. apply a_name. apply a_or2; [apply r_or; [now apply r_before_bool|]|].
  - rewrite <- !app_assoc. apply r_boollit; [exact Ha|now apply solid_no_ws, word_solid| |].
    + intros [r E]. apply Pt. clear -E Hx Hi. change (bs "true") with [116; 114; 117; 101]%N in *.
      assert (K : forall c, ident_char c = true -> forall q, w ++ rest <> c :: q) by (intros c Hc q Eq; rewrite Eq in Hi; cbn in Hi; congruence).
      destruct x as [|c1 x]; [now apply word_ne in Hx|]. cbn in E. inversion E as [[E1 E']]. subst c1.
      destruct x as [|c2 x]; [cbn in E'; exfalso; eapply K; [|exact E']; reflexivity|]. cbn in E'. inversion E' as [[E2 E'']]. subst c2.
      destruct x as [|c3 x]; [cbn in E''; exfalso; eapply K; [|exact E'']; reflexivity|]. cbn in E''. inversion E'' as [[E3 E3']]. subst c3.
      destruct x as [|c4 x]; [cbn in E3'; exfalso; eapply K; [|exact E3']; reflexivity|]. cbn in E3'. inversion E3' as [[E4 E4']]. subst c4.
      now exists x.
    + destruct x as [|c x]; [now apply word_ne in Hx|]. cbn. intros ->. apply Pf. now exists x.
  - unfold identifier. apply a_name, a_map. now apply a_ident.
Qed.
Definition okL (k : nat) (e : expr) (s : list N) : Prop := match k with 0 => accL 0 e s | S k => chainL k e s end.
Lemma ok_acc : forall k e s, k <= 4 -> okL k e s -> accL k e s.
Proof. intros [|k] e s Hk H; [exact H|]. apply chain_acc; [lia|exact H]. Qed.
Lemma lev_bound : forall st k e s, lev st k e s -> k <= 4.
Proof. intros st k e s H. induction H; lia. Qed.
Lemma grammar_ok :
  (forall k e s, lev true k e s -> okL k e s) /\ (forall es s, args true es s -> args_ok es s) /\ (forall es s, more_args true es s -> more_args_ok es s) /\
  (forall ps s, params true ps s -> params_ok ps s) /\ (forall ps s, more_params true ps s -> more_params_ok ps s).
Proof.
  apply (@lev_ind5 true (fun k e s _ => okL k e s) (fun es s _ => args_ok es s) (fun es s _ => more_args_ok es s) (fun ps s _ => params_ok ps s) (fun ps s _ => more_params_ok ps s)).
  - intros e o s c Ho G H Hc. apply ok_paren; try assumption. now apply ok_acc.
  - intros z t s Hz Ht. now apply ok_int with (t := t).
  - intros v t s Hz Ht. now apply ok_str with (t := t).
  - intros f nn o s c es Hf Hn Ho G H Hc. now apply ok_call.
  - intros f nn o s c ps Hf Hn Ho G H Hc. now apply ok_labelled.
  - intros o s c es Ho G H Hc. now apply ok_array.
  - intros b s H. now apply ok_bool.
  - intros x s Hx Hp Hs. apply ok_sym; auto.
  - intros k e s G H Hk. cbn [okL]. apply acc_chain. apply ok_acc; [lia|exact H].
  - intros k o l r s t u Gl Hl Ho Ht Gr Hr. cbn [okL] in *. apply chain_bin; try assumption. apply ok_acc; [now apply lev_bound in Gr|exact Hr].
  - intros n rest L Hc. now left.
  - intros e es s t G H Gm Hm. apply ok_a_some; try assumption. now apply ok_acc.
  - apply ok_ma_end.
  - intros c Hc. now apply ok_ma_comma.
  - intros c e es s t Hc G H Gm Hm. apply ok_ma_more; try assumption. now apply ok_acc.
  - intros x nn w e s ps t Hx Hn Hw Hq G H Gm Hm. apply ok_p_some; try assumption. now apply ok_acc.
  - apply ok_mp_end.
  - intros c Hc. now apply ok_mp_comma.
  - intros c ps s Hc G H. now apply ok_mp_more.
Qed.
(** An expression of the strict grammar, with white space before it unless it begins with a string, is accepted. *)
Lemma a_expression : forall e s a rest, lev true 4 e s -> lead a s -> fol 4 s rest ->
  exists s1 s2, s = s1 ++ s2 /\ ws s2 /\ solid s1 /\ acc (expression nd) (a ++ s1) (s2 ++ rest) e.
Proof.
  intros e s a rest G Hl Hf. assert (A : accL 4 e s) by (apply ok_acc; [lia|now apply grammar_ok]).
  destruct (acc_expr A) with (n := S (length (a ++ s ++ rest))) (a := a) (rest := rest) as (s1 & s2 & Es & W2 & S1 & C0); [rewrite !app_length; lia|exact Hl|exact Hf|].
  exists s1, s2. split; [exact Es|]. split; [exact W2|]. split; [exact S1|]. intros pre. unfold expression.
  destruct (acc_expr A) with (n := S (length (pre ++ (a ++ s1) ++ s2 ++ rest))) (a := a) (rest := rest) as (s1' & s2' & Es' & W2' & S1' & C); [subst s; rewrite !app_length; lia|exact Hl|exact Hf|].
  assert (E : s1' = s1 /\ s2' = s2).
  { assert (I0 : forall u v, s = u ++ v -> (a ++ u) ++ v ++ rest = a ++ s ++ rest) by (intros u v ->; now rewrite <- !app_assoc).
    specialize (C0 []). specialize (C []). cbn [app length] in C. cbn [app length] in C0. rewrite (I0 _ _ Es) in C0. rewrite (I0 _ _ Es') in C.
    rewrite expression_enough in C0 by lia. rewrite expression_enough in C by (subst s; rewrite !app_length; lia).
    rewrite C0 in C. injection C as L. rewrite !app_length in L.
    rewrite Es in Es'. clear -L Es'. apply app_eq_app in Es'. destruct Es' as (l & [[-> ->]|[-> ->]]); rewrite app_length in L; destruct l; cbn in L; try lia; now rewrite !app_nil_r. }
  destruct E as [-> ->]. apply C.
Qed.

(** ** Statements *)
Lemma a_expr0 : forall e s rest, lev true 4 e s -> fol 4 s rest -> exists s1 s2, s = s1 ++ s2 /\ ws s2 /\ acc (expression nd) s1 (s2 ++ rest) e.
Proof.
  intros e s rest G Hf. destruct (@a_expression e s [] rest G (lead_nil _) Hf) as (s1 & s2 & E & W & _ & C). exists s1, s2. now repeat (split; [assumption|]).
Qed.
Lemma fol_tok : forall c t s u rest, In c (stops 4) -> lx (c :: t) u -> fol 4 s (u ++ rest).
Proof. intros c t s u rest H Hu. destruct (lx_hd Hu) as (r & ->). now left. Qed.
Lemma tok_no_ws : forall t u rest, solid t -> lx t u -> no_ws (u ++ rest).
Proof. intros t u rest Ht Hu. apply solid_no_ws. now apply (@lx_solid t). Qed.
(** ( expression ) *)
Lemma a_cond : forall e a o s c rest, ws a -> lx (bs "(") o -> lev true 4 e s -> lx (bs ")") c -> no_ws rest ->
  acc (p_surround lparen (p_lazy (fun _ => expression nd)) rparen) (a ++ o ++ s ++ c) rest e.
Proof.
  intros e a o s c rest Ha Ho G Hc Hr. destruct (@a_expr0 e s (c ++ rest) G) as (s1 & s2 & Es & W & C); [eapply fol_tok; [|exact Hc]; cbn; tauto|].
  subst s. replace (a ++ o ++ (s1 ++ s2) ++ c) with ((a ++ o) ++ s1 ++ s2 ++ c) by now rewrite <- !app_assoc.
  eapply a_surround; [apply a_ttag; try assumption; [cbn; lia|]|apply a_lazy; rewrite <- app_assoc; exact C|apply a_ttag; try assumption; cbn; lia].
  rewrite <- !app_assoc. rewrite (app_assoc s1). apply solid_no_ws. eapply lev_solid, G.
Qed.

(** Which texts the keyword statements refuse. *)
Definition kw_paren (kw l : list N) : Prop := exists w r, l = kw ++ w ++ 40%N :: r /\ ws w.
Lemma ws_split : forall l, exists w r, l = w ++ r /\ ws w /\ no_ws r.
Proof.
  intros l. induction l as [|x l (w & r & -> & Hw & Hr)]; [exists [], []; repeat split; apply ws_nil|].
  destruct (in_dec N.eq_dec x [32; 9; 13; 10]%N) as [H|H].
  - exists (x :: w), r. repeat split; [|exact Hr]. constructor; [cbn in H |- *; lia|exact Hw].
  - exists [], (x :: w ++ r). repeat split; [apply ws_nil|]. cbn in H |- *. intros K. apply H. lia.
Qed.
Lemma kw_split : forall kw l, ~ kw_paren kw l -> (exists w r, l = kw ++ w ++ r /\ ws w /\ no_ws r /\ hd_ne 40%N r) \/ exists c, rej (p_tag kw) l c.
Proof.
  intros kw l H. destruct (tag_cases kw l) as [[r ->]|K]; [left|now right]. destruct (ws_split r) as (w & u & -> & Hw & Hu).
  exists w, u. repeat split; try assumption. destruct u as [|x u]; [exact I|]. cbn. intros ->. apply H. now exists w, u.
Qed.
Lemma r_spaced0 : forall A (p : parser N A) l c, no_ws l -> rej p l c -> rej (spaced p) l c.
Proof. intros A p l c Hl H. apply (@r_spaced A p [] l c); auto. apply ws_nil. Qed.
Lemma r_println : forall l, no_ws l -> ~ kw_paren (bs "println") l -> rej (println nd) l false.
Proof.
  intros l Hl H. unfold println. apply r_name. destruct (kw_split H) as [(w & r & -> & Hw & Hr & Hp)|[c K]].
  - eapply r_attempt, r_spaced0; [exact Hl|]. apply r_map, r_skip_right1. eapply r_skip_left2; [apply a_tag|]. apply r_surround1. now apply r_ttag.
  - eapply r_attempt, r_spaced0; [exact Hl|]. apply r_map, r_skip_right1, r_skip_left1. exact K.
Qed.
Lemma a_ttagw : forall t w rest, solid t -> ws w -> no_ws rest -> acc (t_tag t) (t ++ w) rest t.
Proof. intros t w rest Ht Hw Hr. apply a_ttag0; [exact Ht|now exists w|exact Hr]. Qed.
Lemma r_while : forall p l, no_ws l -> ~ kw_paren (bs "while") l -> rej (while_p nd p) l false.
Proof.
  intros p l Hl H. unfold while_p. apply r_name. destruct (kw_split H) as [(w & r & -> & Hw & Hr & Hp)|[c K]].
  - eapply r_attempt, r_spaced0; [exact Hl|]. apply r_map, r_and1. rewrite app_assoc. eapply r_skip_left2; [apply a_ttagw; try assumption; cbn; lia|].
    apply r_surround1. change r with ([] ++ r). apply r_ttag; [apply ws_nil|exact Hr|exact Hp].
  - eapply r_attempt, r_spaced0; [exact Hl|]. apply r_map, r_and1, r_skip_left1. unfold t_tag. apply r_spaced0; [exact Hl|exact K].
Qed.
Lemma r_if : forall p l, no_ws l -> ~ kw_paren (bs "if") l -> rej (if_p nd p) l false.
Proof.
  intros p l Hl H. unfold if_p. apply r_name. destruct (kw_split H) as [(w & r & -> & Hw & Hr & Hp)|[c K]].
  - eapply r_attempt, r_spaced0; [exact Hl|]. apply r_map, r_and1, r_and1, r_skip_right1, r_skip_left1. rewrite app_assoc. eapply r_skip_left2.
    + eapply a_skip_right; [apply a_tag|now apply a_tspace].
    + change r with ([] ++ r). apply r_ttag; [apply ws_nil|exact Hr|exact Hp].
  - eapply r_attempt, r_spaced0; [exact Hl|]. apply r_map, r_and1, r_and1, r_skip_right1, r_skip_left1, r_skip_left1, r_skip_right1. exact K.
Qed.
Lemma r_for : forall p l, no_ws l -> ~ kw_paren (bs "for") l -> rej (for_p nd p) l false.
Proof.
  intros p l Hl H. unfold for_p. apply r_name. destruct (kw_split H) as [(w & r & -> & Hw & Hr & Hp)|[c K]].
  - eapply r_attempt, r_spaced0; [exact Hl|]. apply r_map, r_and1. rewrite app_assoc. eapply r_skip_left2.
    + eapply a_skip_right; [apply a_tag|now apply a_tspace].
    + unfold for_params. apply r_skip_right1, r_skip_right1, r_and1, r_skip_right1, r_and1, r_skip_right1, r_skip_left1.
      change r with ([] ++ r). apply r_ttag; [apply ws_nil|exact Hr|exact Hp].
  - eapply r_attempt, r_spaced0; [exact Hl|]. apply r_map, r_and1, r_skip_left1, r_skip_right1. exact K.
Qed.
Lemma kw_hd : forall c k x l, x <> c -> ~ kw_paren (c :: k) (x :: l).
Proof. intros c k x l H (w & r & E & _). cbn in E. congruence. Qed.
(** A keyword and an opening parenthesis at a maximal word: the word is the keyword. *)
Lemma kw_word : forall kw x r, word kw -> word x -> hd_not ident_char r -> kw_paren kw (x ++ r) -> x = kw /\ exists w u, r = w ++ 40%N :: u /\ ws w.
Proof.
  intros kw x r Hk Hx Hr (w & u & E & Hw). assert (K : Some x = Some kw).
  { rewrite <- (@word_span x r), E by assumption. apply word_span; [exact Hk|]. now apply ws_not_ident. }
  injection K as ->. split; [reflexivity|]. apply app_inv_head in E. now exists w, u.
Qed.
Lemma kw_word2 : forall kw x w r, word kw -> word x -> ws w -> hd_not ident_char (w ++ r) -> no_ws r -> hd_ne 40%N r -> ~ kw_paren kw (x ++ w ++ r).
Proof.
  intros kw x w r Hk Hx Hw Hi Hr Hp H. apply kw_word in H; try assumption. destruct H as (_ & w' & u & E & Hw').
  assert (K : w = w' /\ r = 40%N :: u).
  { clear Hi. revert w' E Hw'. induction Hw as [|y w Hy Hw IH]; intros [|y' w'] E Hw'; cbn [app] in E.
    - now split.
    - subst r. inversion Hw'; subst. cbn in Hr. contradiction.
    - injection E as -> _. cbn in Hy. lia.
    - injection E as -> E. inversion Hw'; subst. destruct (IH w' E) as [-> ->]; auto. }
  destruct K as [_ ->]. now apply Hp.
Qed.

Lemma ident_paren : forall w r, ws w -> hd_not ident_char (w ++ 40%N :: r).
Proof. intros w r Hw. now apply ws_not_ident. Qed.
Lemma lev_kw : forall kw k e s r, word kw -> lev true k e s -> fol 0 s r -> kw_paren kw (s ++ r) -> head_call e = Some kw.
Proof.
  intros kw k e s r Hk H. revert r. destruct (Hk) as (kc & kt & Ek & Hkc & _).
  assert (HD : forall x l, ~ letter_ x -> kw_paren kw (x :: l) -> False).
  { intros x l Hx (w & u & E & _). rewrite Ek in E. cbn in E. injection E as -> _. contradiction. }
  induction H as [e o s c Ho _ _ Hc|z t s Hz Ht|v t s Hv Ht|f nn o s c es Hf Hn Ho _ Hc|f nn o s c ps Hf Hn Ho _ Hc|o s c es Ho _ Hc|b s Hs|x s Hx _ Hs|k e s _ IH _|k o l r0 s t u _ IH Ho Ht _ _]; intros r Hr K.
  - exfalso. destruct (lx_hd Ho) as (q & ->). revert K. apply HD. unfold letter_; cbn; lia.
  - exfalso. destruct Ht as (w & -> & _). rewrite <- app_assoc in K. destruct (int_hd (w ++ r) Hz) as (c & q & E & Hc). rewrite E in K. revert K. apply HD. unfold letter_, digit in *. lia.
  - exfalso. destruct Ht as (w & -> & _). destruct Hv as (is & _ & -> & _). revert K. apply HD. unfold letter_; cbn; lia.
  - destruct Hn as (w & -> & Hw). rewrite <- !app_assoc in K. apply kw_word in K; try assumption; [destruct K as [-> _]; reflexivity|].
    destruct (lx_hd Ho) as (q & ->). now apply ident_paren.
  - exfalso. destruct Hn as (w & -> & Hw). rewrite <- !app_assoc in K. destruct (lx_hd Ho) as (q & ->). revert K. cbn [app].
    apply kw_word2; try assumption; [|cbn; lia|cbn; lia]. now apply ws_not_ident.
  - exfalso. destruct (lx_hd Ho) as (q & ->). revert K. apply HD. unfold letter_; cbn; lia.
  - exfalso. destruct Hs as (w & -> & Hw). rewrite <- app_assoc in K. revert K. apply kw_word2; try assumption; [apply bool_word|exact (@fol_ident (bool_text b) w r (bool_word b) Hw Hr)|exact (@fol_no_ws _ _ _ Hr)|].
    eapply fol_ne; [exact Hr|now left].
  - exfalso. destruct Hs as (w & -> & Hw). rewrite <- app_assoc in K. revert K. apply kw_word2; try assumption; [exact (@fol_ident x w r Hx Hw Hr)|exact (@fol_no_ws _ _ _ Hr)|].
    eapply fol_ne; [exact Hr|now left].
  - now apply IH with (r := r).
  - cbn. rewrite <- !app_assoc in K. apply IH with (r := t ++ u ++ r); [|exact K]. apply (@fol_0 k). now apply op_fol with (o := o).
Qed.
(** Assignment refuses expression statements. *)
Definition no_single_eq (r : list N) : Prop := hd_ne 61%N r \/ exists q, r = 61%N :: 61%N :: q.
Lemma r_assign_hd : forall x l, ~ letter_ x -> ~ is_ws x -> rej (assignment nd) (x :: l) false.
Proof.
  intros x l H Hw. unfold assignment. apply r_name. eapply r_attempt, r_spaced0; [exact Hw|]. apply r_map, r_skip_right1, r_and1, r_skip_right1.
  apply (@r_ident [] (x :: l)); [apply ws_nil|exact Hw|]. now apply not_start.
Qed.
Lemma r_assign_word : forall x w r, word x -> ws w -> no_ws r -> hd_not ident_char (w ++ r) -> no_single_eq r -> rej (assignment nd) (x ++ w ++ r) false.
Proof.
  intros x w r Hx Hw Hr Hi H. unfold assignment. apply r_name.
  assert (Hn : no_ws (x ++ w ++ r)) by now apply solid_no_ws, word_solid.
  assert (A : acc ident (x ++ w) r x) by (apply (@a_ident x [] w r); auto; apply ws_nil).
  destruct H as [H|(q & ->)].
  - eapply r_attempt, r_spaced0; [exact Hn|]. apply r_map, r_skip_right1, r_and1. rewrite app_assoc. eapply r_skip_right2; [exact A|].
    change r with ([] ++ r). apply r_ttag; [apply ws_nil|exact Hr|exact H].
  - eapply r_attempt, r_spaced0; [exact Hn|]. apply r_map, r_skip_right1. replace (x ++ w ++ 61%N :: 61%N :: q) with (((x ++ w) ++ bs "=") ++ 61%N :: q) by now rewrite <- !app_assoc.
    eapply r_and2.
    + eapply a_skip_right; [exact A|]. apply (@a_ttag0 (bs "=") (bs "=")); [cbn; lia| |cbn; lia]. exists []. split; [reflexivity|apply ws_nil].
    + intros pre. unfold expression. apply (@r_expr (length (pre ++ 61%N :: q)) [] (61%N :: q)); [apply ws_nil|cbn; tauto].
Qed.
Lemma r_assign_lev : forall k e s r, lev true k e s -> fol 0 s r -> no_single_eq r -> rej (assignment nd) (s ++ r) false.
Proof.
  intros k e s r H. revert r.
  induction H as [e o s c Ho _ _ Hc|z t s Hz Ht|v t s Hv Ht|f nn o s c es Hf Hn Ho _ Hc|f nn o s c ps Hf Hn Ho _ Hc|o s c es Ho _ Hc|b s Hs|x s Hx _ Hs|k e s _ IH _|k o l r0 s t u _ IH Ho Ht _ _]; intros r Hr Hq.
  - destruct (lx_hd Ho) as (q & ->). apply r_assign_hd; [unfold letter_; cbn; lia|cbn; lia].
  - destruct Ht as (w & -> & _). rewrite <- app_assoc. destruct (int_hd (w ++ r) Hz) as (c & q & -> & Hc). apply r_assign_hd; unfold letter_, digit in *; [lia|cbn; lia].
  - destruct Ht as (w & -> & _). destruct Hv as (is & _ & -> & _). apply r_assign_hd; [unfold letter_; cbn; lia|cbn; lia].
  - destruct Hn as (w & -> & Hw). destruct (lx_hd Ho) as (q & ->). rewrite <- !app_assoc. apply r_assign_word; try assumption; [cbn; lia|now apply ws_not_ident|left; cbn; lia].
  - destruct Hn as (w & -> & Hw). destruct (lx_hd Ho) as (q & ->). rewrite <- !app_assoc. apply r_assign_word; try assumption; [cbn; lia|now apply ws_not_ident|left; cbn; lia].
  - destruct (lx_hd Ho) as (q & ->). apply r_assign_hd; [unfold letter_; cbn; lia|cbn; lia].
  - destruct Hs as (w & -> & Hw). rewrite <- app_assoc. apply r_assign_word; try assumption; [apply bool_word|exact (@fol_no_ws _ _ _ Hr)|exact (@fol_ident (bool_text b) w r (bool_word b) Hw Hr)].
  - destruct Hs as (w & -> & Hw). rewrite <- app_assoc. apply r_assign_word; try assumption; [exact (@fol_no_ws _ _ _ Hr)|exact (@fol_ident x w r Hx Hw Hr)].
  - now apply IH.
  - rewrite <- !app_assoc. apply IH; [apply (@fol_0 k); now apply op_fol with (o := o)|]. destruct Ht as (w & -> & _).
    destruct o; cbn; try (left; cbn; lia). right. eexists. reflexivity.
Qed.
Lemma kw_words : word (bs "println") /\ word (bs "while") /\ word (bs "if") /\ word (bs "for").
Proof.
  repeat split; (eexists _, _; split; [reflexivity|]; split; [now apply start_iff|]; repeat (apply Forall_cons; [now apply ichar_iff|]); apply Forall_nil).
Qed.
Definition okS (op : bool) (e : expr) (s : list N) : Prop := forall n a rest, length s < n -> ws a -> no_ws rest -> (op = true -> ~ begins (bs "else") rest) ->
  acc (line_fuel nd n) (a ++ s) rest e.
Lemma stm_solid : forall st op e s, stm st op e s -> solid s.
Proof.
  intros st op e s H. destruct H as [e k o s c m Hk|op e b k o s c t Hk|op x e1 e2 b k o n i s1 j s2 c t Hk|op e a k o s c t Hk|op op2 e a b k o s c t l u Hk|x e n q s m Hx Hn|e s m G|es o s c Ho];
    try (apply solid_app; eapply lx_solid; [|eassumption]; cbn; lia).
  - apply solid_app. destruct Hn as (w & -> & _). now apply solid_app, word_solid.
  - apply solid_app. eapply lev_solid, G.
Qed.
Lemma a_line : forall n a s rest e, solid s -> ws a -> no_ws rest ->
  acc (p_or (p_or (p_or (p_or (p_or (p_or (println nd) (p_lazy (fun _ => while_p nd (line_fuel nd n)))) (p_lazy (fun _ => if_p nd (line_fuel nd n)))) (p_lazy (fun _ => for_p nd (line_fuel nd n))))
      (assignment nd)) (expression_line nd)) (block (line_fuel nd n))) s rest e ->
  acc (line_fuel nd (S n)) (a ++ s) rest e.
Proof.
  intros n a s rest e Hs Ha Hr H. cbn [line_fuel]. unfold line_of. apply a_name. rewrite <- (app_nil_r s). apply a_spaced; try assumption. apply ws_nil.
Qed.
Lemma a_spaced0 : forall A (p : parser N A) c rest v, solid c -> no_ws rest -> acc p c rest v -> acc (spaced p) c rest v.
Proof.
  intros A p c rest v Hc Hr H. pose proof (@a_spaced A p [] c [] rest v ws_nil ws_nil Hc Hr H) as K. cbn [app] in K. now rewrite app_nil_r in K.
Qed.
Lemma ok_println : forall e k o s c m, lx (bs "println") k -> lx (bs "(") o -> lev true 4 e s -> lx (bs ")") c -> lx (bs ";") m -> okS false (EPrintln e) (k ++ o ++ s ++ c ++ m).
Proof.
  intros e k o s c m (w & -> & Hw) Ho G Hc Hm [|n] a rest L Ha Hr _; [lia|]. assert (Sx : solid ((bs "println" ++ w) ++ o ++ s ++ c ++ m)) by (cbn; lia).
  apply a_line; try assumption. do 6 apply a_or1. unfold println. apply a_name, a_attempt, a_spaced0; try assumption. apply a_map.
  replace ((bs "println" ++ w) ++ o ++ s ++ c ++ m) with ((bs "println" ++ (w ++ o ++ s ++ c)) ++ m) by now rewrite <- !app_assoc.
  eapply a_skip_right; [eapply a_skip_left; [apply a_tag|]|apply a_ttag0; [cbn; lia|exact Hm|exact Hr]].
  apply a_cond; try assumption. eapply tok_no_ws; [|exact Hm]. cbn; lia.
Qed.
Lemma r_hd_println : forall x l, x <> 112%N -> ~ is_ws x -> rej (println nd) (x :: l) false.
Proof. intros x l H Hw. apply r_println; [exact Hw|]. now apply kw_hd. Qed.
Lemma r_hd_while : forall p x l, x <> 119%N -> ~ is_ws x -> rej (while_p nd p) (x :: l) false.
Proof. intros p x l H Hw. apply r_while; [exact Hw|]. now apply kw_hd. Qed.
Lemma r_hd_if : forall p x l, x <> 105%N -> ~ is_ws x -> rej (if_p nd p) (x :: l) false.
Proof. intros p x l H Hw. apply r_if; [exact Hw|]. now apply kw_hd. Qed.
Lemma r_hd_for : forall p x l, x <> 102%N -> ~ is_ws x -> rej (for_p nd p) (x :: l) false.
Proof. intros p x l H Hw. apply r_for; [exact Hw|]. now apply kw_hd. Qed.
Lemma ok_while : forall op e b k o s c t, lx (bs "while") k -> lx (bs "(") o -> lev true 4 e s -> lx (bs ")") c -> stm true op b t -> okS op b t -> okS op (EWhile e b) (k ++ o ++ s ++ c ++ t).
Proof.
  intros op e b k o s c t Hk Ho G Hc Gt Ht [|n] a rest L Ha Hr Hop; [lia|]. assert (Sx : solid (k ++ o ++ s ++ c ++ t)) by (apply solid_app; eapply lx_solid; [|exact Hk]; cbn; lia).
  apply a_line; try assumption. do 5 apply a_or1. apply a_or2; [destruct (lx_hd Hk) as (q & ->); apply r_hd_println; cbn; lia|].
  apply a_lazy. unfold while_p. apply a_name, a_attempt, a_spaced0; try assumption. apply a_map_eq with (v := (e, b)); [|reflexivity].
  replace (k ++ o ++ s ++ c ++ t) with ((k ++ ([] ++ o ++ s ++ c)) ++ t) by (cbn [app]; now rewrite <- !app_assoc).
  assert (Lk : 0 < length k) by (destruct (lx_hd Hk) as (q & ->); cbn; lia). rewrite !app_length in L.
  eapply a_and; [eapply a_skip_left|].
  - apply a_ttag0; [cbn; lia|exact Hk|]. cbn [app]. rewrite <- !app_assoc. eapply tok_no_ws; [|exact Ho]. cbn; lia.
  - apply a_cond; try assumption; [apply ws_nil|]. apply solid_no_ws. eapply stm_solid, Gt.
  - apply a_lazy. apply (Ht n [] rest); try assumption; [lia|apply ws_nil].
Qed.
Lemma ok_for : forall op x e1 e2 b k o nn i s1 j s2 c t, lx (bs "for") k -> lx (bs "(") o -> word x -> lx x nn -> spaced_off nn ->
    lx (bs "in") i -> lev true 4 e1 s1 -> spaced_off s1 -> lx (bs "to") j -> lev true 4 e2 s2 -> lx (bs ")") c -> stm true op b t -> okS op b t ->
    okS op (for_expr x e1 e2 b) (k ++ o ++ nn ++ i ++ s1 ++ j ++ s2 ++ c ++ t).
Proof.
  intros op x e1 e2 b k o nn i s1 j s2 c t (w & -> & Hw) Ho Hx (wx & -> & Hwx) Hsx (wi & -> & Hwi) G1 Hs1 Hj G2 Hc Gt Ht [|n] a rest L Ha Hr Hop; [lia|].
  assert (Nx : wx <> []) by (intros ->; rewrite app_nil_r in Hsx; now apply word_not_off in Hsx).
  apply a_line; try assumption; [cbn; lia|]. do 3 apply a_or1. apply a_or2.
  { repeat apply r_or; [apply r_hd_println|apply r_lazy, r_hd_while|apply r_lazy, r_hd_if]; cbn; lia. }
  apply a_lazy. unfold for_p. apply a_name, a_attempt, a_spaced0; [cbn; lia|exact Hr|]. apply a_map_eq with (v := (x, e1, e2, b)); [|reflexivity].
  destruct (@a_expr0 e1 s1 (j ++ s2 ++ c ++ t ++ rest) G1) as (s11 & s12 & E1 & W1 & C1).
  { destruct (lx_hd Hj) as (q & ->). right. now split. }
  destruct (@a_expr0 e2 s2 (c ++ t ++ rest) G2) as (s21 & s22 & E2 & W2 & C2); [eapply fol_tok; [|exact Hc]; cbn; tauto|].
  assert (St : no_ws (t ++ rest)) by (apply solid_no_ws; eapply stm_solid, Gt).
  assert (Sj : no_ws (j ++ s2 ++ c ++ t ++ rest)) by (eapply tok_no_ws; [|exact Hj]; cbn; lia).
  assert (N1 : no_ws (s1 ++ j ++ s2 ++ c ++ t ++ rest)) by (apply solid_no_ws; eapply lev_solid, G1).
  assert (N2 : no_ws (s2 ++ c ++ t ++ rest)) by (apply solid_no_ws; eapply lev_solid, G2).
  assert (Nc : no_ws (c ++ t ++ rest)) by (eapply tok_no_ws; [|exact Hc]; cbn; lia).
  rewrite !app_length in L. subst s1 s2.
  replace ((bs "for" ++ w) ++ o ++ (x ++ wx) ++ (bs "in" ++ wi) ++ (s11 ++ s12) ++ j ++ (s21 ++ s22) ++ c ++ t)
    with (((bs "for" ++ w) ++ ((((((o ++ ([] ++ x ++ wx)) ++ (([] ++ bs "in") ++ wi)) ++ s11) ++ (s12 ++ j)) ++ s21) ++ s22) ++ c) ++ t) by (cbn [app]; now rewrite <- !app_assoc).
  eapply a_and; [eapply a_skip_left|].
  - eapply a_skip_right; [apply a_tag|]. apply a_tspace; [exact Hw|]. rewrite <- !app_assoc. eapply tok_no_ws; [|exact Ho]. cbn; lia.
  - unfold for_params. eapply a_skip_right; [eapply a_skip_right; [eapply a_and; [eapply a_skip_right; [eapply a_and; [eapply a_skip_right; [eapply a_skip_left|]|]|]|]|]|].
    + apply a_ttag0; [cbn; lia|exact Ho|]. cbn [app]. rewrite <- !app_assoc. now apply solid_no_ws, word_solid.
    + apply a_ident; try assumption; [apply ws_nil|cbn; lia|]. apply ws_not_ident; [exact Hwx|contradiction].
    + eapply a_and; [eapply a_and; [apply a_tspace; [apply ws_nil|cbn; lia]|apply a_tag]|]. apply a_tspace; [exact Hwi|]. rewrite <- ?app_assoc in N1. rewrite <- ?app_assoc. exact N1.
    + rewrite <- ?app_assoc in C1. rewrite <- ?app_assoc. exact C1.
    + apply a_ttag; try assumption; [cbn; lia|]. rewrite <- ?app_assoc in N2. rewrite <- ?app_assoc. exact N2.
    + rewrite <- ?app_assoc in C2. rewrite <- ?app_assoc. exact C2.
    + apply a_tspace; [exact W2|]. rewrite <- ?app_assoc. exact Nc.
    + apply a_ttag0; [cbn; lia|exact Hc|exact St].
  - apply a_lazy. apply (Ht n [] rest); try assumption; [cbn in L; lia|apply ws_nil].
Qed.
Lemma a_if_head : forall e k o s c rest, lx (bs "if") k -> lx (bs "(") o -> lev true 4 e s -> lx (bs ")") c -> no_ws rest ->
  acc (p_skip_right (p_skip_left (p_skip_left (p_skip_right (p_tag (bs "if")) t_space) lparen) (expression nd)) rparen) (k ++ o ++ s ++ c) rest e.
Proof.
  intros e k o s c rest (w & -> & Hw) Ho G Hc Hr. destruct (@a_expr0 e s (c ++ rest) G) as (s1 & s2 & E & W & C); [eapply fol_tok; [|exact Hc]; cbn; tauto|].
  assert (N : no_ws (s ++ c ++ rest)) by (apply solid_no_ws; eapply lev_solid, G).
  subst s. replace ((bs "if" ++ w) ++ o ++ (s1 ++ s2) ++ c) with ((((bs "if" ++ w) ++ o) ++ s1) ++ (s2 ++ c)) by (now rewrite <- !app_assoc).
  eapply a_skip_right; [eapply a_skip_left; [eapply a_skip_left; [eapply a_skip_right; [apply a_tag|apply a_tspace; [exact Hw|]]|]|]|].
  - rewrite <- !app_assoc. eapply tok_no_ws; [|exact Ho]. cbn; lia.
  - apply a_ttag0; [cbn; lia|exact Ho|]. rewrite <- ?app_assoc in N. rewrite <- ?app_assoc. exact N.
  - rewrite <- app_assoc. exact C.
  - apply a_ttag; try assumption. cbn; lia.
Qed.
Lemma a_if : forall n k rest l c t el v, lx (bs "if") k -> solid (k ++ l) -> no_ws rest -> acc (p_and
        (p_and (p_skip_right (p_skip_left (p_skip_left (p_skip_right (p_tag (bs "if")) t_space) lparen) (expression nd)) rparen) (line_fuel nd n))
        (p_opt (p_skip_left (t_tag (bs "else")) (line_fuel nd n)))) (k ++ l) rest (c, t, el) -> v = EIf c t el -> forall a, ws a -> acc (line_fuel nd (S n)) (a ++ k ++ l) rest v.
Proof.
  intros n k rest l c t el v Hk Hs Hr H -> a Ha. apply a_line; try assumption. do 4 apply a_or1. apply a_or2.
  { destruct (lx_hd Hk) as (q & ->). apply r_or; [apply r_hd_println|apply r_lazy, r_hd_while]; cbn; lia. }
  apply a_lazy. unfold if_p. apply a_name, a_attempt, a_spaced0; try assumption. now apply a_map_eq with (v := (c, t, el)).
Qed.
Lemma ok_if : forall op e b k o s c t, lx (bs "if") k -> lx (bs "(") o -> lev true 4 e s -> lx (bs ")") c -> stm true op b t -> okS op b t ->
  okS true (EIf e b None) (k ++ o ++ s ++ c ++ t).
Proof.
  intros op e b k o s c t Hk Ho G Hc Gt Ht [|n] a rest L Ha Hr Hop; [lia|]. assert (Sx : solid (k ++ o ++ s ++ c ++ t)) by (apply solid_app; eapply lx_solid; [|exact Hk]; cbn; lia).
  assert (Lk : 0 < length k) by (destruct (lx_hd Hk) as (q & ->); cbn; lia). rewrite !app_length in L.
  eapply a_if; try eassumption; [|reflexivity]. replace (k ++ o ++ s ++ c ++ t) with (((k ++ o ++ s ++ c) ++ t) ++ []) by (rewrite app_nil_r; now rewrite <- !app_assoc).
  eapply a_and; [eapply a_and|].
  - apply a_if_head; try assumption. apply solid_no_ws. eapply stm_solid, Gt.
  - apply (Ht n [] rest); try assumption; [lia|apply ws_nil|auto].
  - specialize (Hop eq_refl). destruct (tag_cases (bs "else") rest) as [K|[cc K]]; [contradiction|]. eapply a_opt_none. apply r_skip_left1. unfold t_tag. apply r_spaced0; [exact Hr|exact K].
Qed.
Lemma ok_ifelse : forall op2 e b1 b2 k o s c t l u, lx (bs "if") k -> lx (bs "(") o -> lev true 4 e s -> lx (bs ")") c -> stm true false b1 t -> okS false b1 t -> lx (bs "else") l ->
  stm true op2 b2 u -> okS op2 b2 u -> okS op2 (EIf e b1 (Some b2)) (k ++ o ++ s ++ c ++ t ++ l ++ u).
Proof.
  intros op2 e b1 b2 k o s c t l u Hk Ho G Hc Gt Ht Hl Gu Hu [|n] a rest L Ha Hr Hop; [lia|].
  assert (Sx : solid (k ++ o ++ s ++ c ++ t ++ l ++ u)) by (apply solid_app; eapply lx_solid; [|exact Hk]; cbn; lia).
  assert (Lk : 0 < length k) by (destruct (lx_hd Hk) as (q & ->); cbn; lia). rewrite !app_length in L.
  eapply a_if; try eassumption; [|reflexivity]. replace (k ++ o ++ s ++ c ++ t ++ l ++ u) with (((k ++ o ++ s ++ c) ++ t) ++ (l ++ u)) by (now rewrite <- !app_assoc).
  eapply a_and; [eapply a_and|].
  - apply a_if_head; try assumption. rewrite <- app_assoc. apply solid_no_ws. eapply stm_solid, Gt.
  - apply (Ht n [] ((l ++ u) ++ rest)); try assumption; [lia|apply ws_nil| |discriminate]. rewrite <- app_assoc. eapply tok_no_ws; [|exact Hl]. cbn; lia.
  - apply a_opt. eapply a_skip_left.
    + apply a_ttag0; [cbn; lia|exact Hl|]. apply solid_no_ws. eapply stm_solid, Gu.
    + apply (Hu n [] rest); try assumption; [lia|apply ws_nil].
Qed.
Lemma ok_assign : forall x e nn q s m, word x -> lx x nn -> lx (bs "=") q -> lev true 4 e s -> lx (bs ";") m -> okS false (EAssign x e) (nn ++ q ++ s ++ m).
Proof.
  intros x e nn q s m Hx (w & -> & Hw) Hq G Hm [|n] a rest L Ha Hr _; [lia|]. assert (Sx : solid ((x ++ w) ++ q ++ s ++ m)) by (rewrite <- app_assoc; now apply solid_app, word_solid).
  assert (Nq : forall u, no_ws (q ++ u) /\ hd_ne 40%N (q ++ u) /\ hd_not ident_char (w ++ q ++ u)).
  { intros u. destruct (lx_hd Hq) as (r & ->). repeat split; [cbn; lia|cbn; lia|]. now apply ws_not_ident. }
  apply a_line; try assumption. do 2 apply a_or1. apply a_or2.
  { rewrite <- !app_assoc. assert (NN : no_ws (x ++ w ++ q ++ s ++ m ++ rest)) by (now apply solid_no_ws, word_solid).
    assert (K : forall kw, word kw -> ~ kw_paren kw (x ++ w ++ q ++ s ++ m ++ rest)) by (intros kw Hk; destruct (Nq (s ++ m ++ rest)) as (N1 & N2 & N3); now apply kw_word2).
    destruct kw_words as (K1 & K2 & K3 & K4). repeat apply r_or; [apply r_println|apply r_lazy, r_while|apply r_lazy, r_if|apply r_lazy, r_for]; auto. }
  unfold assignment. apply a_name, a_attempt, a_spaced0; try assumption. apply a_map_eq with (v := (x, e)); [|reflexivity].
  destruct (@a_expr0 e s (m ++ rest) G) as (s1 & s2 & E & W & C); [eapply fol_tok; [|exact Hm]; cbn; tauto|].
  assert (N : no_ws (s ++ m ++ rest)) by (apply solid_no_ws; eapply lev_solid, G).
  subst s. replace ((x ++ w) ++ q ++ (s1 ++ s2) ++ m) with (((([] ++ x ++ w) ++ q) ++ s1) ++ (s2 ++ m)) by (cbn [app]; now rewrite <- !app_assoc).
  eapply a_skip_right; [eapply a_and; [eapply a_skip_right|]|].
  - apply a_ident; try assumption; [apply ws_nil| |]; rewrite <- !app_assoc; now apply Nq.
  - apply a_ttag0; [cbn; lia|exact Hq|]. rewrite <- ?app_assoc in N. rewrite <- ?app_assoc. exact N.
  - rewrite <- app_assoc. exact C.
  - apply a_ttag; try assumption. cbn; lia.
Qed.
Lemma ok_expr : forall e s m, lev true 4 e s -> no_keyword_call e -> lx (bs ";") m -> okS false e (s ++ m).
Proof.
  intros e s m G Hk Hm [|n] a rest L Ha Hr _; [lia|]. assert (F : fol 4 s (m ++ rest)) by (eapply fol_tok; [|exact Hm]; cbn; tauto).
  assert (Sx : solid (s ++ m)) by (apply solid_app; eapply lev_solid, G).
  apply a_line; try assumption. apply a_or1. apply a_or2.
  { assert (K : forall kw, word kw -> head_call e <> Some kw -> ~ kw_paren kw ((s ++ m) ++ rest)).
    { intros kw Hw H K. apply H. rewrite <- app_assoc in K. eapply lev_kw; [exact Hw|exact G|apply (@fol_0 4), F|exact K]. }
    destruct kw_words as (K1 & K2 & K3 & K4). assert (NN : no_ws ((s ++ m) ++ rest)) by now apply solid_no_ws.
    repeat apply r_or; [apply r_println|apply r_lazy, r_while|apply r_lazy, r_if|apply r_lazy, r_for|];
      try exact NN; try (apply K; [assumption|]; intros E; apply Hk in E; tauto).
    rewrite <- app_assoc. eapply r_assign_lev; [exact G|apply (@fol_0 4), F|]. left. destruct (lx_hd Hm) as (r & ->). cbn. lia. }
  unfold expression_line. apply a_name, a_attempt. destruct (@a_expr0 e s (m ++ rest) G F) as (s1 & s2 & E & W & C). subst s. rewrite <- app_assoc.
  eapply a_skip_right; [rewrite <- app_assoc; exact C|]. apply a_ttag; try assumption. cbn; lia.
Qed.
Lemma r_expression : forall a l, ws a -> no_start l -> rej (expression nd) (a ++ l) false.
Proof. intros a l Ha Hl pre. unfold expression. now apply r_expr. Qed.
Lemma r_line6 : forall n x l, ~ is_ws x -> ~ letter_ x -> no_start (x :: l) ->
  rej (p_or (p_or (p_or (p_or (p_or (println nd) (p_lazy (fun _ => while_p nd (line_fuel nd n)))) (p_lazy (fun _ => if_p nd (line_fuel nd n)))) (p_lazy (fun _ => for_p nd (line_fuel nd n))))
      (assignment nd)) (expression_line nd)) (x :: l) false.
Proof.
  intros n x l Hw Hx Hn. assert (x <> 112%N /\ x <> 119%N /\ x <> 105%N /\ x <> 102%N) by (unfold letter_ in Hx; lia).
  repeat apply r_or; [apply r_hd_println|apply r_lazy, r_hd_while|apply r_lazy, r_hd_if|apply r_lazy, r_hd_for|now apply r_assign_hd|]; try tauto.
  unfold expression_line. apply r_name. eapply r_attempt, r_skip_right1. apply (@r_expression [] (x :: l)); [apply ws_nil|exact Hn].
Qed.
Lemma r_line : forall n a l, ws a -> match l with [] => True | x :: _ => x = 125%N end -> rej (line_fuel nd (S n)) (a ++ l) false.
Proof.
  intros n a l Ha Hl. cbn [line_fuel]. unfold line_of. apply r_name, r_spaced; [exact Ha|destruct l; [exact I|subst; cbn; lia]|].
  assert (NB : hd_ne 123%N l) by (destruct l; [exact I|subst; cbn; lia]). assert (NW : no_ws l) by (destruct l; [exact I|subst; cbn; lia]).
  apply r_or.
  - destruct l as [|x l].
    + assert (E0 : forall kw, kw <> [] -> ~ kw_paren kw []) by (intros [|c kw] H (w & r & E & _); [congruence|discriminate]).
      repeat apply r_or; [apply r_println|apply r_lazy, r_while|apply r_lazy, r_if|apply r_lazy, r_for| |]; try exact I; try (apply E0; discriminate).
      * unfold assignment. apply r_name. eapply r_attempt, r_spaced0; [exact I|]. apply r_map, r_skip_right1, r_and1, r_skip_right1. apply (@r_ident [] []); [apply ws_nil|exact I|exact I].
      * unfold expression_line. apply r_name. eapply r_attempt, r_skip_right1. apply (@r_expression [] []); [apply ws_nil|exact I].
    + subst x. apply r_line6; [cbn; lia|unfold letter_; lia|cbn; tauto].
  - unfold block. apply r_name, r_spaced0; [exact NW|]. apply r_map, r_surround1. change l with ([] ++ l). apply r_ttag; [apply ws_nil|exact NW|exact NB].
Qed.
Definition okSS (es : list expr) (s : list N) : Prop := forall n rest, length s < n -> match rest with [] => True | x :: _ => x = 125%N end -> chain (line_fuel nd n) s rest es.
Lemma a_block : forall n es o s c rest, lx (bs "{") o -> okSS es s -> (s = [] \/ solid s) -> lx (bs "}") c -> length s < n -> no_ws rest -> acc (block (line_fuel nd n)) (o ++ s ++ c) rest (EBlock es).
Proof.
  intros n es o s c rest Ho Hs Hso Hc L Hr. unfold block. apply a_name, a_spaced0; [apply solid_app; eapply lx_solid; [|exact Ho]; cbn; lia|exact Hr|]. apply a_map.
  destruct (lx_hd Hc) as (q & Eq). assert (CR : match c ++ rest with [] => True | x :: _ => x = 125%N end) by (now rewrite Eq).
  eapply a_surround.
  - apply a_ttag0; [cbn; lia|exact Ho|]. destruct Hso as [->|Hso]; [rewrite Eq; cbn; lia|]. now apply solid_no_ws.
  - destruct n as [|n]; [lia|]. eapply a_many0; [apply (Hs (S n) (c ++ rest) L CR)|]. apply r_lazy. apply (@r_line n [] (c ++ rest)); [apply ws_nil|exact CR].
  - apply a_ttag0; [cbn; lia|exact Hc|exact Hr].
Qed.
Lemma stms_solid : forall st es s, stms st es s -> s = [] \/ solid s.
Proof. intros st es s [|op e es' u t H _ _]; [now left|right]. apply solid_app. eapply stm_solid, H. Qed.
Lemma begins_cut : forall p t x r, ~ In x p -> begins p (t ++ x :: r) -> begins p t.
Proof.
  intros p t x r. revert p. induction t as [|y t IH]; intros p H [q E].
  - destruct p as [|z p]; [now exists []|]. cbn in E. injection E as -> _. exfalso. apply H. now left.
  - destruct p as [|z p]; [now exists (y :: t)|]. cbn in E. injection E as -> E. destruct (IH p) as [u ->]; [intros K; apply H; now right|now exists q|]. now exists u.
Qed.
Lemma stm_ok : (forall op e s, stm true op e s -> okS op e s) /\ (forall es s, stms true es s -> okSS es s).
Proof.
  apply (@stm_ind2 true (fun op e s _ => okS op e s) (fun es s _ => okSS es s)).
  - intros. now apply ok_println.
  - intros. now apply ok_while.
  - intros. apply ok_for; auto.
  - intros. now apply ok_if with (op := op).
  - intros op op2 e a b k o s c t l u Hk Ho G Hc Gt Ht Hop Hl Gu Hu. specialize (Hop eq_refl). subst op. now apply ok_ifelse.
  - intros. now apply ok_assign.
  - intros. apply ok_expr; auto.
  - intros es o s c Ho G H Hc [|n] a rest L Ha Hr _; [lia|]. rewrite !app_length in L. assert (Lo : 0 < length o) by (destruct (lx_hd Ho) as (q & ->); cbn; lia).
    apply a_line; try assumption; [apply solid_app; eapply lx_solid; [|exact Ho]; cbn; lia|]. apply a_or2.
    + destruct (lx_hd Ho) as (q & ->). apply r_line6; [cbn; lia|unfold letter_; cbn; lia|cbn; tauto].
    + apply a_block; try assumption; [eapply stms_solid, G|lia].
  - intros n rest L Hr. apply chain_nil.
  - intros op e es s t Gs Hs Hop Gt Ht n rest L Hr. rewrite app_length in L.
    assert (Sn : s <> []) by (eapply solid_ne, stm_solid, Gs). assert (0 < length s) by (destruct s; [congruence|cbn; lia]).
    apply chain_cons; [|exact Sn|apply Ht; [lia|exact Hr]]. apply (Hs n [] (t ++ rest)); [lia|apply ws_nil| |].
    + destruct (stms_solid Gt) as [->|K]; [destruct rest; [exact I|cbn in Hr |- *; subst; cbn; lia]|now apply solid_no_ws].
    + intros ->. specialize (Hop eq_refl eq_refl). intros K. apply Hop. destruct rest as [|x r]; [now rewrite app_nil_r in K|]. subst x.
      eapply begins_cut; [|exact K]. cbn. lia.
Qed.
Lemma a_line0 : forall op e s a rest, stm true op e s -> ws a -> no_ws rest -> (op = true -> ~ begins (bs "else") rest) -> acc (line nd) (a ++ s) rest e.
Proof. intros op e s a rest G Ha Hr Ho pre. unfold line. apply (proj1 stm_ok op e s G); try assumption. rewrite !app_length. lia. Qed.
Lemma after_stm : forall op e s es t rest, stm true op e s -> (true = true -> op = true -> ~ begins (bs "else") t) -> stms true es t ->
  match rest with [] => True | x :: _ => x = 125%N end -> no_ws (t ++ rest) /\ (op = true -> ~ begins (bs "else") (t ++ rest)).
Proof.
  intros op e s es t rest Gs Hop Gt Hr. split.
  - destruct (stms_solid Gt) as [->|K]; [destruct rest; [exact I|cbn in Hr |- *; subst; cbn; lia]|now apply solid_no_ws].
  - intros ->. specialize (Hop eq_refl eq_refl). intros K. apply Hop. destruct rest as [|x r]; [now rewrite app_nil_r in K|]. subst x.
    eapply begins_cut; [|exact K]. cbn. lia.
Qed.
Lemma stms_chain : forall es s rest, stms true es s -> match rest with [] => True | x :: _ => x = 125%N end -> chain (line nd) s rest es.
Proof.
  intros es s rest H Hr. induction H as [|op e es s t Gs Hop Gt IH]; [apply chain_nil|].
  destruct (@after_stm _ _ _ _ _ rest Gs Hop Gt Hr) as [N1 N2]. apply chain_cons; [|eapply solid_ne, stm_solid, Gs|exact IH]. apply (@a_line0 op e s []); auto using ws_nil.
Qed.
Lemma r_line0 : forall a l, ws a -> match l with [] => True | x :: _ => x = 125%N end -> rej (line nd) (a ++ l) false.
Proof. intros a l Ha Hl pre. unfold line. now apply r_line. Qed.
(** A non-empty sequence of statements, up to the end of the input. *)
Theorem a_lines : forall es s a, stms true es s -> es <> [] -> ws a -> acc (lines nd) (a ++ s) [] es.
Proof.
  intros es s a H Hn Ha. destruct H as [|op e es s t Gs Hop Gt]; [congruence|]. unfold lines.
  destruct (@after_stm op e s es t [] Gs Hop Gt I) as [N1 N2]. rewrite app_nil_r in N1, N2.
  replace (a ++ s ++ t) with ((((a ++ s) ++ t) ++ []) ++ []) by (rewrite !app_nil_r; now rewrite <- app_assoc).
  eapply a_skip_right; [eapply a_skip_right|apply a_end].
  - eapply a_many1; [|apply (@r_line0 [] []); [apply ws_nil|exact I]|discriminate]. apply chain_cons.
    + rewrite app_nil_r. now apply (@a_line0 op e s a).
    + intros E. apply app_eq_nil in E. destruct E as [_ E]. revert E. eapply solid_ne, stm_solid, Gs.
    + apply stms_chain; [exact Gt|exact I].
  - apply a_tspace; [apply ws_nil|exact I].
Qed.

(** ** Programs *)
Lemma r_top : forall a l, ws a -> match l with [] => True | x :: _ => ~ is_ws x /\ x <> 103%N /\ x <> 102%N end -> rej (top_level_definition nd) (a ++ l) false.
Proof.
  intros a l Ha Hl. assert (Hn : no_ws l) by (destruct l; [exact I|apply Hl]). unfold top_level_definition. apply r_name, r_or.
  - unfold global_variable_definition. apply r_name, r_spaced; try assumption. apply r_map, r_skip_right1, r_and1, r_skip_right1, r_skip_left1.
    change l with ([] ++ l). apply r_ttag; [apply ws_nil|exact Hn|]. destruct l; [exact I|apply Hl].
  - unfold function_definition. apply r_name, r_spaced; try assumption. apply r_map, r_and1, r_and1, r_skip_right1, r_skip_left1, r_skip_left1.
    change l with ([] ++ l). eapply r_skip_left2; [apply a_tspace; [apply ws_nil|exact Hn]|]. apply r_tag. destruct l; [exact I|apply Hl].
Qed.
Definition names_ok (xs : list name) (s : list N) : Prop := forall rest, close rest -> acc (p_many0_sep ident comma) s rest xs.
Definition more_names_ok (xs : list name) (s : list N) : Prop := forall rest, close rest -> tailok ident xs s rest.
Lemma name_acc : forall x nn rest, word x -> lx x nn -> no_ws rest -> hd_not ident_char rest -> acc ident nn rest x.
Proof. intros x nn rest Hx (w & -> & Hw) Hr Hi. apply (@a_ident x [] w rest); try assumption; [apply ws_nil|]. now apply ws_not_ident. Qed.
Lemma close_not_ident : forall l, close l -> hd_not ident_char l.
Proof. intros [|x l] H; [exact I|]. cbn in H |- *. destruct H as [->| ->]; reflexivity. Qed.
Lemma more_after : forall xs t rest, more_names xs t -> close rest -> no_ws (t ++ rest) /\ hd_not ident_char (t ++ rest).
Proof.
  intros xs t rest H Hc. destruct H as [|c (w & -> & _)|c x xs nn t (w & -> & _)]; [split; [now apply close_no_ws|now apply close_not_ident]| |]; (split; [cbn; lia|reflexivity]).
Qed.
Lemma name_solid : forall x nn, word x -> lx x nn -> solid nn.
Proof. intros x nn Hx (w & -> & _). now apply solid_app, word_solid. Qed.
Lemma names_all : (forall xs s, names xs s -> names_ok xs s) /\ (forall xs s, more_names xs s -> more_names_ok xs s).
Proof.
  apply (@names_ind2 (fun xs s _ => names_ok xs s) (fun xs s _ => more_names_ok xs s)).
  - intros rest Hc. eapply a_repeat_sep_none. apply (@r_ident [] rest); [apply ws_nil|now apply close_no_ws|].
    destruct rest as [|x r]; [exact I|]. cbn in Hc |- *. destruct Hc as [->| ->]; reflexivity.
  - intros x xs nn t Hx Hn G H rest Hc. destruct (@more_after _ _ rest G Hc) as [N1 N2].
    apply (@a_list _ ident 0 nn t [] rest x xs false); [now apply name_acc|now apply H|apply ws_nil|exact Hc| |lia].
    apply (@r_ident [] rest); [apply ws_nil|now apply close_no_ws|]. destruct rest as [|y r]; [exact I|]. cbn in Hc |- *. destruct Hc as [->| ->]; reflexivity.
  - intros rest Hc. left. constructor.
  - intros c Hc rest Hr. right. exists [], c. split; [reflexivity|]. split; [constructor|]. apply (@a_comma [] c rest); [apply ws_nil|exact Hc|now apply close_no_ws].
  - intros c x xs nn t Hc Hx Hn G H rest Hr. destruct (@more_after _ _ rest G Hr) as [N1 N2].
    eapply tail_cons; [apply (@a_comma [] c); [apply ws_nil|exact Hc|]|now apply name_acc| |now apply H].
    + now apply solid_no_ws, (@name_solid x).
    + now apply solid_ne, (@name_solid x).
Qed.
Lemma def_solid : forall st e s, def st e s -> solid s.
Proof. intros st e s [x e' k n q s' m Hk|f xs es k n o s' c p t q Hk]; apply solid_app; (eapply lx_solid; [|exact Hk]; cbn; lia). Qed.
Lemma a_top : forall e s a rest, def true e s -> ws a -> no_ws rest -> acc (top_level_definition nd) (a ++ s) rest e.
Proof.
  intros e s a rest H Ha Hr. pose proof (def_solid H) as Sx. unfold top_level_definition. apply a_name.
  destruct H as [x e k nn q s m Hk Hx Hn Hq G Hm|f xs es k nn o s c p t q Hk Hf Hn Ho Gn Hc Hp G Hq].
  - apply a_or1. unfold global_variable_definition. apply a_name. rewrite <- (app_nil_r (k ++ nn ++ q ++ s ++ m)).
    apply a_spaced; try assumption; [apply ws_nil|]. apply a_map_eq with (v := (x, e)); [|reflexivity]. cbn [app].
    destruct (@a_expr0 e s (m ++ rest) G) as (s1 & s2 & E & W & C); [eapply fol_tok; [|exact Hm]; cbn; tauto|].
    assert (N : no_ws (s ++ m ++ rest)) by (apply solid_no_ws; eapply lev_solid, G).
    subst s. replace (k ++ nn ++ q ++ (s1 ++ s2) ++ m) with ((((k ++ nn) ++ q) ++ s1) ++ (s2 ++ m)) by (now rewrite <- !app_assoc).
    eapply a_skip_right; [eapply a_and; [eapply a_skip_right; [eapply a_skip_left|]|]|].
    + apply a_ttag0; [cbn; lia|exact Hk|]. rewrite <- ?app_assoc. now apply solid_no_ws, (@name_solid x).
    + apply name_acc; try assumption; destruct (lx_hd Hq) as (r & ->); [cbn; lia|reflexivity].
    + apply a_ttag0; [cbn; lia|exact Hq|]. rewrite <- ?app_assoc in N. rewrite <- ?app_assoc. exact N.
    + rewrite <- app_assoc. exact C.
    + apply a_ttag; try assumption. cbn; lia.
  - destruct Hk as (w & -> & Hw). apply a_or2.
    { unfold global_variable_definition. rewrite <- app_assoc. apply r_name, r_spaced; [exact Ha|now apply solid_no_ws|].
      apply r_map, r_skip_right1, r_and1, r_skip_right1, r_skip_left1. rewrite <- !app_assoc. apply (@r_ttag _ _ []); [apply ws_nil|cbn; lia|cbn; lia]. }
    unfold function_definition. apply a_name. rewrite <- (app_nil_r ((bs "fn" ++ w) ++ nn ++ o ++ s ++ c ++ p ++ t ++ q)).
    apply a_spaced; try assumption; [apply ws_nil|]. apply a_map_eq with (v := (f, xs, EBlock es)); [|reflexivity]. cbn [app].
    assert (No : forall u, no_ws (o ++ u) /\ hd_not ident_char (o ++ u)) by (intros u; destruct (lx_hd Ho) as (r & ->); split; [cbn; lia|reflexivity]).
    assert (Cl : forall u, close (c ++ u)) by (intros u; destruct (lx_hd Hc) as (r & ->); now left).
    replace ((bs "fn" ++ w) ++ nn ++ o ++ s ++ c ++ p ++ t ++ q) with (((((([] ++ bs "fn") ++ w) ++ nn) ++ []) ++ (o ++ s ++ c)) ++ (p ++ t ++ q)) by (cbn [app]; rewrite app_nil_r; now rewrite <- !app_assoc).
    eapply a_and; [eapply a_and; [eapply a_skip_right; [eapply a_skip_left; [eapply a_skip_left; [eapply a_skip_left|]|]|]|]|].
    + apply a_tspace; [apply ws_nil|cbn; lia].
    + apply a_tag.
    + apply a_tspace; [exact Hw|]. rewrite <- ?app_assoc. now apply solid_no_ws, (@name_solid f).
    + apply name_acc; try assumption; cbn [app]; rewrite <- ?app_assoc; apply No.
    + apply a_tspace; [apply ws_nil|]. rewrite <- ?app_assoc. apply No.
    + eapply a_surround.
      * apply a_ttag0; [cbn; lia|exact Ho|]. destruct Gn as [|x xs n t0 Hx Hn0]; [cbn [app]; rewrite <- ?app_assoc; apply close_no_ws, Cl|]. rewrite <- ?app_assoc. now apply solid_no_ws, (@name_solid x).
      * apply (proj1 names_all xs s Gn). apply Cl.
      * apply a_ttag0; [cbn; lia|exact Hc|]. rewrite <- ?app_assoc. eapply tok_no_ws; [|exact Hp]. cbn; lia.
    + unfold block. apply a_name, a_spaced0; [apply solid_app; eapply lx_solid; [|exact Hp]; cbn; lia|exact Hr|]. apply a_map.
      destruct (lx_hd Hq) as (qq & Eq). assert (CR : match q ++ rest with [] => True | x :: _ => x = 125%N end) by (now rewrite Eq).
      eapply a_surround.
      * apply a_ttag0; [cbn; lia|exact Hp|]. destruct (stms_solid G) as [->|Hso]; [rewrite Eq; cbn; lia|]. now apply solid_no_ws.
      * eapply a_many0; [apply stms_chain; [exact G|exact CR]|]. apply r_lazy. apply (@r_line0 [] (q ++ rest)); [apply ws_nil|exact CR].
      * apply a_ttag0; [cbn; lia|exact Hq|exact Hr].
Qed.
Lemma defs_solid : forall st es s, defs st es s -> s = [] \/ solid s.
Proof. intros st es s [|e es' u t H _]; [now left|right]. apply solid_app. eapply def_solid, H. Qed.
(** Definitions, then anything that does not start another one. *)
Theorem a_program : forall es s a rest, defs true es s -> ws a -> match rest with [] => True | x :: _ => ~ is_ws x /\ x <> 103%N /\ x <> 102%N end ->
  acc (program nd) (a ++ s) rest (EProgram es).
Proof.
  intros es s a rest H Ha Hl. assert (Hr : no_ws rest) by (destruct rest; [exact I|apply Hl]). unfold program. eapply a_skip_left.
  - apply a_tspace; [exact Ha|]. destruct (defs_solid H) as [->|K]; [exact Hr|now apply solid_no_ws].
  - apply a_map. eapply a_many0; [|apply (@r_top [] rest); [apply ws_nil|exact Hl]].
    clear Ha. induction H as [|e es s t Gs Gt IH]; [apply chain_nil|]. apply chain_cons; [|eapply solid_ne, def_solid, Gs|exact IH].
    apply (@a_top e s []); [exact Gs|apply ws_nil|]. destruct (defs_solid Gt) as [->|K]; [exact Hr|now apply solid_no_ws].
Qed.
End Complete.
