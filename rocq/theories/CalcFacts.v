(** The calculator accepts exactly the grammar of CalcSpec.v, with the tree the grammar gives. *)
From Verif Require Import Base Core Comb Closure RepFacts LitFacts ChainFacts Hoare Runs ChainRules Text Agree Json JsonSpec JsonFacts Calc CalcSpec.
Set Implicit Arguments.
Local Open Scope string_scope.
Local Open Scope nat_scope.
Local Open Scope list_scope.

Lemma h_cspace : hoare c_space (fun _ s => cws s).
Proof. exact h_space. Qed.
Lemma a_cspace : forall s rest, cws s -> no_ws rest -> acc c_space s rest tt.
Proof. exact a_space. Qed.

(** ** The number pattern *)
Lemma span_spec : forall f s a b, span f s = (a, b) -> s = a ++ b /\ forallb f a = true /\ hd_not f b.
Proof.
  intros f s. induction s as [|x s IH]; intros a b H; [inv H; repeat split|]. cbn in H. destruct (f x) eqn:E.
  - destruct (span f s) as [a' b'] eqn:Es. inv H. destruct (IH a' b eq_refl) as (-> & H2 & H3). repeat split; [|exact H3]. cbn. now rewrite E.
  - inv H. repeat split. exact E.
Qed.
Lemma span_app : forall f a b, forallb f a = true -> hd_not f b -> span f (a ++ b) = (a, b).
Proof.
  intros f a b. induction a as [|x a IH]; intros H1 H2.
  - destruct b as [|y b]; [reflexivity|]. cbn in H2 |- *. now rewrite H2.
  - cbn in H1 |- *. apply andb_true_iff in H1. destruct H1 as [-> H1]. now rewrite IH.
Qed.

Section Facts.
Variable D : Type.
Variable nd : N -> bool.
Variable dec : list N -> D + unit.
(** The class \d restricted to ASCII is 0-9; Decimal::from_str rejects every text with a non-ASCII character. *)
Hypothesis nd_ascii : forall x, (x < 128)%N -> (nd x = true <-> digit x).
Hypothesis dec_ascii : forall s x d, In x s -> dec s = inl d -> (x < 128)%N.

Lemma digits_nd : forall s, Forall digit s -> forallb nd s = true.
Proof.
  intros s H. rewrite forallb_forall. intros x Hx. rewrite Forall_forall in H. specialize (H x Hx).
  apply nd_ascii; [unfold digit in H; lia|exact H].
Qed.
Lemma nd_digits : forall s, forallb nd s = true -> (forall x, In x s -> (x < 128)%N) -> Forall digit s.
Proof.
  intros s H Ha. apply Forall_forall. intros x Hx. rewrite forallb_forall in H. apply nd_ascii; [now apply Ha|now apply H].
Qed.
Lemma utf8_len_ascii : forall s, (forall x, In x s -> (x < 128)%N) -> utf8_len s = length s.
Proof.
  intros s H. induction s as [|x s IH]; [reflexivity|]. cbn [utf8_len fold_right List.length].
  unfold utf8_len_char. destruct (N.ltb_spec x 128) as [L|L].
  - change (1 + utf8_len s = S (length s)). rewrite IH; [reflexivity|]. intros y Hy. apply H. now right.
  - specialize (H x (or_introl eq_refl)). lia.
Qed.
Lemma find_decimal_prefix : forall s m, find_decimal nd s = Some m -> exists t, s = m ++ t.
Proof.
  intros s m H. unfold find_decimal in H. destruct (span nd s) as [a r] eqn:E. apply span_spec in E. destruct E as (-> & E1 & E2).
  destruct a as [|x a]; [discriminate|]. destruct r as [|y r]; [inv H; now exists []|].
  destruct (N.eqb_spec y (chr ".")) as [->|Hy].
  - destruct (span nd r) as [b r'] eqn:Er. apply span_spec in Er. destruct Er as (-> & F1 & F2). destruct b as [|z b].
    + inv H. now eexists.
    + inv H. exists r'. cbn [app]. f_equal. now rewrite <- app_assoc.
  - inv H. now eexists.
Qed.
Lemma find_decimal_number : forall s m, find_decimal nd s = Some m -> (forall x, In x m -> (x < 128)%N) -> c_number m.
Proof.
  intros s m H Ha. unfold find_decimal in H. destruct (span nd s) as [a r] eqn:E. apply span_spec in E. destruct E as (-> & E1 & E2).
  assert (G : forall a, forallb nd a = true -> (forall x, In x a -> (x < 128)%N) -> a <> [] -> c_digits a).
  { clear - nd_ascii. intros a E Ha Hn. split; [now apply nd_digits|exact Hn]. }
  destruct a as [|x a]; [discriminate|].
  assert (K : Some (x :: a) = Some m -> c_number m) by (intros K; inv K; left; apply G; [exact E1|exact Ha|discriminate]).
  destruct r as [|y r]; [now apply K|].
  destruct (N.eqb_spec y (chr ".")) as [->|Hy]; [|now apply K].
  destruct (span nd r) as [b r'] eqn:Er. apply span_spec in Er. destruct Er as (-> & F1 & F2).
  destruct b as [|z b]; [now apply K|]. inv H. right. exists (x :: a), (z :: b). split; [reflexivity|].
  split; (apply G; [assumption| |discriminate]); intros u Hu; apply Ha; apply (in_or_app (x :: a)); [now left|right; now right].
Qed.
Lemma h_cvalue : hoare (c_value nd dec) (fun e s => g_factor dec e s).
Proof.
  unfold c_value. eapply h_map with (Q := fun d s => c_number s /\ dec s = inl d); [|intros d s [H1 H2]; now constructor].
  intros inp off Ho. unfold p_map_res, p_regex. rewrite ps_input_ok by exact Ho.
  destruct (find_decimal nd (skipn off inp)) as [m|] eqn:E; [|exact I].
  destruct (dec m) as [d|u] eqn:Ed; [|exact I].
  assert (A : forall x, In x m -> (x < 128)%N) by (intros x Hx; eapply dec_ascii; eassumption).
  rewrite (utf8_len_ascii m A). destruct (find_decimal_prefix _ E) as [t Et]. rewrite Et.
  split; [|rewrite firstn_app, firstn_all, Nat.sub_diag, app_nil_r; split; [exact (find_decimal_number _ E A)|exact Ed]].
  pose proof (skipn_length off inp) as L. rewrite Et, app_length in L. lia.
Qed.

(** What may follow a number. *)
Definition cfollow (l : list N) : Prop := match l with [] => True | x :: _ => In x ([32; 9; 13; 10]%N ++ bs "+-*/)") end.
Lemma cfollow_nd : forall l, cfollow l -> hd_not nd l /\ match l with [] => True | x :: _ => x <> chr "." end.
Proof.
  intros [|x l] H; [now split|]. cbn [cfollow hd_not] in *.
  assert (G : forall y, In y ([32; 9; 13; 10]%N ++ bs "+-*/)") -> (y < 128)%N /\ ~ digit y /\ y <> chr ".").
  { intros y Hy. unfold digit. cbn in Hy |- *. repeat (destruct Hy as [Hy|Hy]; [subst y; lia|]). destruct Hy. }
  destruct (G x H) as (G1 & G2 & G3). split; [|exact G3]. destruct (nd x) eqn:E; [|reflexivity]. apply nd_ascii in E; tauto.
Qed.
Lemma c_number_ascii : forall s, c_number s -> forall x, In x s -> (x < 128)%N.
Proof.
  assert (G : forall s, Forall digit s -> forall x, In x s -> (x < 128)%N).
  { intros s H x Hx. rewrite Forall_forall in H. specialize (H x Hx). unfold digit in H. lia. }
  intros s [[H _]|(a & b & -> & [Ha _] & [Hb _])] x Hx; [exact (G _ H _ Hx)|].
  apply in_app_or in Hx. destruct Hx as [Hx|Hx]; [exact (G _ Ha _ Hx)|]. destruct Hx as [<-|Hx]; [reflexivity|]. exact (G _ Hb _ Hx).
Qed.
Lemma find_decimal_at : forall s rest, c_number s -> cfollow rest -> find_decimal nd (s ++ rest) = Some s.
Proof.
  intros s rest H Hr. destruct (cfollow_nd _ Hr) as [Hd Hp]. unfold find_decimal.
  destruct H as [[H Hne]|(a & b & -> & [Ha Hna] & [Hb Hnb])].
  - rewrite span_app; [|now apply digits_nd|exact Hd]. destruct s as [|x s]; [congruence|]. destruct rest as [|y rest]; [reflexivity|].
    destruct (N.eqb_spec y (chr ".")); [contradiction|reflexivity].
  - rewrite <- !app_assoc. rewrite span_app; [|now apply digits_nd|].
    + destruct a as [|x a]; [congruence|]. cbn [bs app]. change (bs "." ++ b ++ rest) with (chr "." :: b ++ rest). rewrite N.eqb_refl.
      rewrite span_app; [|now apply digits_nd|exact Hd]. destruct b as [|y b]; [congruence|reflexivity].
    + change (nd (chr ".") = false). destruct (nd (chr ".")) eqn:E; [|reflexivity]. apply nd_ascii in E; [|reflexivity]. unfold digit in E. cbn in E. lia.
Qed.
Lemma a_cvalue : forall s d rest, c_number s -> dec s = inl d -> cfollow rest -> acc (c_value nd dec) s rest (CValue d).
Proof.
  intros s d rest H Hd Hr. unfold c_value. apply a_map. eapply a_map_res; [|exact Hd].
  intros pre. unfold p_regex. rewrite input_at, find_decimal_at by assumption. f_equal. apply utf8_len_ascii. now apply c_number_ascii.
Qed.
Lemma r_cvalue : forall l, hd_not nd l -> rej (c_value nd dec) l false.
Proof.
  intros l H. unfold c_value. apply r_map, r_map_res. intros pre. unfold p_regex. rewrite input_at. unfold find_decimal.
  destruct l as [|x l]; [now eexists|]. cbn in H |- *. rewrite H. now eexists.
Qed.

(** ** Soundness *)
Notation factor := (g_factor dec).
Notation term := (g_term dec).
Notation gexpr := (g_expr dec).
Lemma h_cparen : forall c (Q : _ -> list N -> Prop),
  (forall v a b, cws a -> cws b -> Q v (a ++ c :: b)) ->
  hoare (p_and (p_and c_space (p_elm_ref c)) c_space) Q.
Proof.
  intros c Q H. eapply h_and with (P := fun _ s => exists a, cws a /\ s = a ++ [c]); [|apply h_cspace|].
  - eapply h_and; [apply h_cspace|apply h_elm_ref with (R := fun _ s => s = [c]); reflexivity|].
    cbv beta. intros _ _ s t Hs ->. now exists s.
  - cbv beta. intros [v u] w s t (a & Ha & ->) Ht. rewrite <- app_assoc. now apply H.
Qed.
Lemma h_primary_step : forall p e, hoare p factor -> hoare e gexpr -> hoare (primary_step nd dec p e) factor.
Proof.
  intros p e Hp He. unfold primary_step. apply h_or.
  - unfold unary. eapply h_map_panic with (Q := fun v s => exists t, factor (snd v) t /\ (fst v = chr "+" \/ fst v = chr "-") /\ s = fst v :: t).
    + eapply h_and with (P := fun v s => (v = chr "+" \/ v = chr "-") /\ s = [v]); [|apply h_lazy, Hp|].
      * apply h_or; apply h_elm_ref; auto.
      * cbv beta. intros a b s t [Ha ->] Ht. exists t. auto.
    + intros [c x] s (t & Ht & Hc & ->). cbn [fst snd] in *. destruct Hc as [->| ->]; (eexists; split; [reflexivity|]); [now apply gf_plus|now apply gf_minus].
  - unfold primary0. apply h_or; [|apply h_cvalue].
    eapply h_map with (Q := fun x s => factor (CParen x) s); [|auto].
    eapply h_surround with (L := fun _ s => exists a b, cws a /\ cws b /\ s = a ++ bs "(" ++ b)
      (R := fun _ s => exists a b, cws a /\ cws b /\ s = a ++ bs ")" ++ b); [apply h_cparen|apply h_lazy, He|apply h_cparen|].
    + intros v a b Ha Hb. exists a, b. auto.
    + intros v a b Ha Hb. exists a, b. auto.
    + cbv beta. intros _ x _ s t u (a & b & Ha & Hb & ->) Hx (c & d & Hc & Hd & ->). rewrite <- !app_assoc. now apply gf_paren.
Qed.
Lemma h_cop : forall A c1 c2 (f : N -> option A) g1 g2, f c1 = Some g1 -> f c2 = Some g2 ->
  hoare (p_map_panic (p_skip_right (p_skip_left c_space (p_or (p_elm_ref c1) (p_elm_ref c2))) c_space) f)
    (fun g s => exists a b c, s = a ++ [c] ++ b /\ cws a /\ cws b /\ (c = c1 /\ g = g1 \/ c = c2 /\ g = g2)).
Proof.
  intros A c1 c2 f g1 g2 H1 H2.
  eapply h_map_panic with (Q := fun v s => exists a b, s = a ++ [v] ++ b /\ cws a /\ cws b /\ (v = c1 \/ v = c2)).
  - eapply h_skip_right with (P := fun v s => exists a, s = a ++ [v] /\ cws a /\ (v = c1 \/ v = c2)); [|apply h_cspace|].
    + eapply h_skip_left with (Q := fun v s => s = [v] /\ (v = c1 \/ v = c2)); [apply h_cspace| |].
      * apply h_or; apply h_elm_ref; auto.
      * cbv beta. intros _ v s t Hs [-> Ht]. now exists s.
    + cbv beta. intros v _ s t (a & -> & Ha & Hv) Ht. exists a, t. now rewrite <- app_assoc.
  - intros v s (a & b & -> & Ha & Hb & [->| ->]); [exists g1|exists g2]; (split; [assumption|]); exists a, b.
    + exists c1. repeat split; auto.
    + exists c2. repeat split; auto.
Qed.
Lemma cop_ne : forall (a b : list N) (c : N), a ++ [c] ++ b <> [].
Proof. intros [|x a] b c; discriminate. Qed.
Lemma h_multitive : forall p, hoare p factor -> hoare (multitive p) term.
Proof.
  intros p Hp. unfold multitive. eapply h_chain_left1; [exact Hp|unfold mul_op; eapply h_cop; reflexivity| | |].
  - cbv beta. intros f t (a & b & c & -> & _). apply cop_ne.
  - intros x s H. now apply gt_one.
  - cbv beta. intros x s f t y u Hx (a & b & c & -> & Ha & Hb & [[-> ->]|[-> ->]]) Hy; rewrite <- !app_assoc; [now apply gt_mul|now apply gt_div].
Qed.
Lemma h_additive : forall p, hoare p factor -> hoare (additive p) gexpr.
Proof.
  intros p Hp. unfold additive. eapply h_chain_left1; [apply h_multitive, Hp|unfold add_op; eapply h_cop; reflexivity| | |].
  - cbv beta. intros f t (a & b & c & -> & _). apply cop_ne.
  - intros x s H. now apply ge_one.
  - cbv beta. intros x s f t y u Hx (a & b & c & -> & Ha & Hb & [[-> ->]|[-> ->]]) Hy; rewrite <- !app_assoc; [now apply ge_add|now apply ge_sub].
Qed.

(** The recursion with failure instead of divergence at its bound. *)
Fixpoint primary_safe (n : nat) : parser N (cexpr D) :=
  match n with
  | 0 => p_failed Incomplete Uncommitted
  | S n' => primary_step nd dec (primary_safe n') (additive (primary_safe n'))
  end.
Lemma h_primary_safe : forall n, hoare (primary_safe n) factor.
Proof. induction n as [|n IH]; [apply h_failed|]. apply h_primary_step; [exact IH|now apply h_additive]. Qed.

Lemma consumes_paren : forall c, consumes (p_and (p_and c_space (p_elm_ref c)) c_space).
Proof.
  intros c. eapply hoare_consumes; [apply h_cparen with (Q := fun _ s => s <> []); intros _ a b _ _; apply (cop_ne a b c)|auto|].
  intros inp off Ho v n E. unfold p_and at 1 in E. destruct (p_and c_space (p_elm_ref c) inp off) eqn:E1; try discriminate. clear E.
  unfold p_and in E1. destruct (c_space inp off) eqn:E2; try discriminate.
  destruct (p_elm_ref c inp (off + len0)) eqn:E3; try discriminate. apply elm_ref_out in E3; [exact E3|lia].
Qed.
Lemma consumes_sign : consumes (p_or (p_elm_ref (chr "+")) (p_elm_ref (chr "-"))).
Proof.
  eapply hoare_consumes; [apply h_or; apply h_elm_ref with (R := fun _ s => s <> []); discriminate|auto|].
  intros inp off Ho v n E. unfold p_or in E. destruct (p_elm_ref (chr "+") inp off) as [w k|e c| |] eqn:E1; try discriminate.
  - now apply elm_ref_out in E1.
  - destruct (negb c); [now apply elm_ref_out in E|discriminate].
Qed.
Lemma ag_map_panic : forall A B n (p q : parser N A) (f : A -> option B), agree n p q -> agree n (p_map_panic p f) (p_map_panic q f).
Proof. intros A B n p q f H inp off Hl. unfold p_map_panic. now rewrite H. Qed.
Lemma ag_additive : forall n (p q : parser N (cexpr D)), agree n p q -> agree n (additive p) (additive q).
Proof. intros n p q H. unfold additive, multitive. now apply ag_chain_left1, ag_chain_left1. Qed.
Lemma ag_primary_step : forall n p q e f, agree n p q -> agree n e f -> agree (S n) (primary_step nd dec p e) (primary_step nd dec q f).
Proof.
  intros n p q e f H1 H2. unfold primary_step. apply ag_or.
  - unfold unary. apply ag_map_panic, ag_and_S; [apply consumes_sign|]. now apply ag_lazy.
  - unfold primary0. apply ag_or; [|apply ag_refl]. apply ag_map, ag_surround_S; [apply consumes_paren|]. now apply ag_lazy.
Qed.
Lemma ag_primary : forall n m, n <= m -> agree n (primary_fuel nd dec m) (primary_safe n).
Proof.
  induction n as [|n IH]; intros m Hm.
  - intros inp off H. lia.
  - destruct m as [|m]; [lia|]. cbn [primary_fuel primary_safe]. apply ag_primary_step; [|apply ag_additive]; apply IH; lia.
Qed.
(** Fuel one more than the length of the input is enough, and more fuel changes nothing. *)
Lemma calc_fuel_enough : forall inp off fuel, length inp < fuel -> calculator_fuel nd dec fuel inp off = calculator nd dec inp off.
Proof.
  intros inp off fuel H. unfold calculator, calculator_fuel.
  assert (G : agree (S (length inp)) (primary_fuel nd dec fuel) (primary_fuel nd dec (S (length inp)))).
  { intros i o Hl. rewrite (ag_primary H), (ag_primary (le_n _)) by exact Hl. reflexivity. }
  apply (ag_skip_right (ag_additive G) (ag_refl _)). lia.
Qed.
Lemma h_calculator : forall inp, match calculator nd dec inp 0 with
  | Success e n => n = length inp /\ gexpr e inp
  | Failure _ _ => True
  | Panic | Diverge => False
  end.
Proof.
  intros inp. unfold calculator, calculator_fuel.
  assert (G : agree (S (length inp)) (primary_fuel nd dec (S (length inp))) (primary_safe (S (length inp)))) by (apply ag_primary; lia).
  rewrite (ag_skip_right (ag_additive G) (ag_refl p_end)) by lia.
  assert (H : hoare (additive (primary_safe (S (length inp)))) gexpr) by (apply h_additive, h_primary_safe).
  specialize (H inp 0 ltac:(lia)). unfold p_skip_right.
  destruct (additive (primary_safe (S (length inp))) inp 0) as [v n|e c| |]; try exact H.
  destruct H as [L H]. cbn in L. pose proof (@h_end N (fun _ _ => True) I inp (0 + n) L) as He.
  destruct (p_end inp (0 + n)) as [u m|e c| |] eqn:E; try exact He.
  unfold p_end in E. rewrite ps_input_ok in E by exact L. destruct (skipn (0 + n) inp) eqn:Es; [|discriminate]. inv E.
  cbn in L, Es, H. assert (n = length inp) as ->.
  { pose proof (skipn_length n inp) as K. rewrite Es in K. cbn in K. lia. }
  rewrite firstn_all in H. split; [lia|exact H].
Qed.
(** ** Every text of the grammar is accepted. *)
Notation prim := (primary_fuel nd dec).
Notation multi n := (multitive (primary_fuel nd dec n)).
Lemma cws_app : forall a b, cws a -> cws b -> cws (a ++ b).
Proof. exact ws_app. Qed.
(** White space up to a character that is none. *)
Definition stop_at (cs l : list N) : Prop := exists w r, l = w ++ r /\ cws w /\ match r with [] => True | x :: _ => In x cs end.
Definition solid (l : list N) : Prop := match l with [] => False | x :: _ => ~ is_ws x end.
Lemma solid_no_ws : forall l r, solid l -> no_ws (l ++ r).
Proof. intros [|x l] r H; [destruct H|exact H]. Qed.
Lemma solid_app : forall l r, solid l -> solid (l ++ r).
Proof. intros [|x l] r H; [destruct H|exact H]. Qed.
Lemma in_not_ws : forall x, In x (bs "+-*/)(") -> ~ is_ws x.
Proof. intros x H K. cbn in H, K. lia. Qed.
Lemma stop_follow : forall l, stop_at (bs "+-)") l -> cfollow l.
Proof.
  intros l (w & r & -> & Hw & Hr). destruct w as [|x w].
  - destruct r as [|x r]; [exact I|]. cbn in Hr |- *. tauto.
  - inversion Hw as [|? ? Hx _]; subst. cbn in Hx |- *. tauto.
Qed.
Lemma ws_follow : forall w x r, cws w -> In x (bs "+-*/)") -> cfollow (w ++ x :: r).
Proof.
  intros [|y w] x r Hw Hx; [apply in_or_app with (l := [32; 9; 13; 10]%N); now right|].
  inversion Hw as [|? ? Hy _]; subst. cbn in Hy |- *. tauto.
Qed.
Lemma a_cop : forall A c1 c2 (f : N -> option A) c g a b rest, (c = c1 \/ c = c2) -> In c (bs "+-*/)(") -> f c = Some g -> cws a -> cws b -> no_ws rest ->
  acc (p_map_panic (p_skip_right (p_skip_left c_space (p_or (p_elm_ref c1) (p_elm_ref c2))) c_space) f) (a ++ [c] ++ b) rest g.
Proof.
  intros A c1 c2 f c g a b rest Hc Hn Hf Ha Hb Hr. eapply a_map_panic; [|exact Hf]. rewrite app_assoc.
  eapply a_skip_right; [|now apply a_cspace]. eapply a_skip_left; [apply a_cspace; [exact Ha|]|].
  - cbn. now apply in_not_ws.
  - destruct (N.eq_dec c c1) as [->|Hd]; [apply a_or1, a_elm_ref|]. destruct Hc as [->| ->]; [congruence|].
    apply a_or2; [apply r_elm_ref; exact Hd|apply a_elm_ref].
Qed.
Lemma r_cop : forall A c1 c2 (f : N -> option A) cs l, stop_at cs l -> (forall x, In x cs -> x <> c1 /\ x <> c2 /\ ~ is_ws x) ->
  rej (p_map_panic (p_skip_right (p_skip_left c_space (p_or (p_elm_ref c1) (p_elm_ref c2))) c_space) f) l false.
Proof.
  intros A c1 c2 f cs l (w & r & -> & Hw & Hr) Hc. apply r_map_panic, r_skip_right1.
  eapply r_skip_left2; [apply a_cspace; [exact Hw|]|].
  - destruct r as [|x r]; [exact I|]. now apply Hc.
  - destruct r as [|x r]; apply r_or; apply r_elm_ref; try exact I; now apply Hc.
Qed.
Lemma r_mul_op : forall l, stop_at (bs "+-)") l -> rej (@mul_op D) l false.
Proof. intros l H. unfold mul_op. eapply r_cop; [exact H|]. intros x Hx. unfold is_ws. cbn in Hx |- *. lia. Qed.
Lemma r_add_op : forall l, stop_at (bs ")") l -> rej (@add_op D) l false.
Proof. intros l H. unfold add_op. eapply r_cop; [exact H|]. intros x Hx. unfold is_ws. cbn in Hx |- *. lia. Qed.

(** White space [a] before and [d] after the core of an expression: only next to a parenthesis. *)
Definition pads (lp rp : bool) (a d : list N) : Prop := cws a /\ cws d /\ (lp = false -> a = []) /\ (rp = false -> d = []).
Definition factor_ok (e : cexpr D) (s : list N) (lp rp : bool) : Prop :=
  solid s /\ forall n a d rest, length s < n -> pads lp rp a d -> (rp = true -> no_ws rest) -> cfollow rest -> acc (prim n) (a ++ s ++ d) rest e.
Definition term_ok (e : cexpr D) (s : list N) (lp rp : bool) : Prop :=
  solid s /\ forall n a d tail rest v, length s < n -> pads lp rp a d -> (rp = true -> no_ws (tail ++ rest)) -> cfollow (tail ++ rest) ->
  acc (p_rest_left1 (prim n) (@mul_op D) e) tail rest v -> acc (multi n) (a ++ s ++ d ++ tail) rest v.
Definition expr_ok (e : cexpr D) (s : list N) (lp rp : bool) : Prop :=
  solid s /\ forall n a d tail rest v, length s < n -> pads lp rp a d -> (rp = true -> no_ws (tail ++ rest)) -> stop_at (bs "+-)") (tail ++ rest) ->
  acc (p_rest_left1 (multi n) (@add_op D) e) tail rest v -> acc (additive (prim n)) (a ++ s ++ d ++ tail) rest v.
Definition padded (ok : list N -> bool -> bool -> Prop) (s : list N) : Prop :=
  exists a s' d lp rp, s = a ++ s' ++ d /\ pads lp rp a d /\ ok s' lp rp.

(** White space [w] between an operand and an operator or parenthesis belongs to the operand if that ends in a parenthesis. *)
Lemma split_ws : forall rp w, cws w -> exists d o, w = d ++ o /\ cws d /\ cws o /\ (rp = false -> d = []) /\ (rp = true -> o = []).
Proof.
  intros [] w H; [exists w, []|exists [], w]; repeat split; try discriminate; try assumption; try constructor. now rewrite app_nil_r.
Qed.

Lemma number_ok : forall s d, c_number s -> dec s = inl d -> factor_ok (CValue d) s false false.
Proof.
  intros s d Hs Hd. assert (S : exists x t, s = x :: t /\ digit x).
  { destruct Hs as [[H Hn]|(a & b & -> & [H Hn] & _)]; (destruct H as [|x t Hx _]; [congruence|]).
    - now exists x, t.
    - now exists x, (t ++ bs "." ++ b). }
  destruct S as (x & t & E & Hx). split.
  - rewrite E. intros K. unfold digit in Hx. cbn in K. lia.
  - intros [|n] a c rest L (Ha & Hc & Pa & Pc) Hr Hf; [lia|]. rewrite Pa, Pc by reflexivity. rewrite app_nil_r. cbn [app primary_fuel].
    unfold primary_step. apply a_or2; [|unfold primary0; apply a_or2; [|now apply a_cvalue]].
    + rewrite E. unfold unary. apply r_map_panic, r_and1. unfold digit in Hx. apply r_or; apply r_elm_ref; cbn; lia.
    + apply r_map, r_surround1. rewrite E. apply r_and1. change ((x :: t) ++ rest) with ([] ++ x :: t ++ rest).
      eapply r_and2; [apply a_cspace; [constructor|]|].
      * intros K. unfold digit in Hx. cbn in K. lia.
      * apply r_elm_ref. unfold digit in Hx. cbn. lia.
Qed.
Lemma sign_ok : forall c mk e s lp rp, In c (bs "+-") -> (if (c =? chr "-")%N then Some (CMinus e) else if (c =? chr "+")%N then Some (CPlus e) else None) = Some mk ->
  forall a d, pads lp rp a d -> factor_ok e s lp rp -> padded (factor_ok mk) ([c] ++ a ++ s ++ d).
Proof.
  intros c mk e s lp rp Hc Hmk a d (Pa & Pd & Pl & Pr) [Hs H]. exists [], ([c] ++ a ++ s), d, false, rp. split; [|split; [|split]].
  - now rewrite <- !app_assoc.
  - repeat split; try assumption; constructor.
  - cbn. cbn in Hc. lia.
  - intros [|n] a' d' rest L (Qa & Qd & Ql & Qr) Hr Hf; [lia|]. rewrite Ql by reflexivity. cbn [primary_fuel].
    unfold primary_step. apply a_or1. unfold unary. apply a_map_panic with (v := (c, e)); [|exact Hmk].
    change ([] ++ ([c] ++ a ++ s) ++ d') with ([c] ++ ((a ++ s) ++ d')). eapply a_and.
    + destruct Hc as [<-|[<-|[]]]; [apply a_or1, a_elm_ref|apply a_or2; [apply r_elm_ref; discriminate|apply a_elm_ref]].
    + apply a_lazy. rewrite <- app_assoc. apply H; try assumption; [|repeat split; assumption].
      cbn in L. rewrite app_length in L. lia.
Qed.
Lemma paren_ok : forall e s lp rp b c ae de, cws b -> cws c -> pads lp rp ae de -> expr_ok e s lp rp ->
  factor_ok (CParen e) (bs "(" ++ b ++ (ae ++ s ++ de) ++ c ++ bs ")") true true.
Proof.
  intros e s lp rp b c ae de Hb Hc (Pa & Pd & Pl & Pr) [Hs H]. split; [cbn; lia|].
  intros [|n] a d rest L (Qa & Qd & _ & _) Hr Hf; [lia|]. cbn [primary_fuel]. unfold primary_step. specialize (Hr eq_refl).
  apply a_or2.
  { unfold unary. apply r_map_panic, r_and1.
    assert (K : exists y t, (a ++ (bs "(" ++ b ++ (ae ++ s ++ de) ++ c ++ bs ")") ++ d) ++ rest = y :: t /\ (is_ws y \/ y = chr "(")).
    { destruct a as [|y a]; [eexists _, _; split; [reflexivity|now right]|]. inversion Qa as [|? ? Hy _]; subst. eexists _, _; split; [reflexivity|now left]. }
    destruct K as (y & t & -> & K). unfold is_ws in K. cbn in K. apply r_or; apply r_elm_ref; cbn; lia. }
  unfold primary0. apply a_or1. apply a_map.
  destruct (split_ws rp (cws_app Pd Hc)) as (dd & o & Edo & Hdd & Ho & Sd & So).
  replace (a ++ (bs "(" ++ b ++ (ae ++ s ++ de) ++ c ++ bs ")") ++ d) with
    ((a ++ [chr "("] ++ (b ++ (if lp then [] else ae) ++ (if lp then ae else []))) ++ (s ++ dd) ++ (o ++ [chr ")"] ++ d)).
  2:{ transitivity (a ++ bs "(" ++ b ++ ae ++ s ++ (de ++ c) ++ bs ")" ++ d).
      - rewrite Edo. rewrite <- !app_assoc. cbn [bs app]. do 3 f_equal. destruct lp; cbn [app]; [reflexivity|]. reflexivity.
      - now rewrite <- !app_assoc. }
  assert (Wae : cws ((if lp then [] else ae) ++ (if lp then ae else []))) by (destruct lp; cbn [app]; [exact Pa|now rewrite app_nil_r]).
  assert (NS : forall r, no_ws (s ++ r)) by (intros r; now apply solid_no_ws).
  eapply a_surround.
  - replace (a ++ [chr "("] ++ b ++ (if lp then [] else ae) ++ (if lp then ae else [])) with
      ((a ++ [chr "("]) ++ b ++ (if lp then [] else ae) ++ (if lp then ae else [])) by now rewrite <- !app_assoc.
    eapply a_and; [eapply a_and; [apply a_cspace; [exact Qa|]|apply a_elm_ref]|].
    + cbn. lia.
    + apply a_cspace; [now apply cws_app|]. rewrite <- app_assoc. apply NS.
  - apply a_lazy. change (s ++ dd) with ([] ++ s ++ dd). rewrite <- (app_nil_r dd). apply H.
    + cbn in L. rewrite !app_length in L. lia.
    + repeat split; try assumption; constructor.
    + intros Er. rewrite (So Er). cbn. lia.
    + exists o, ([chr ")"] ++ d ++ rest). cbn [app]. rewrite <- app_assoc. repeat split; [exact Ho|cbn; tauto].
    + apply a_rest_nil, r_add_op. exists o, ([chr ")"] ++ d ++ rest). cbn [app]. rewrite <- app_assoc. repeat split; [exact Ho|cbn; tauto].
  - rewrite app_assoc. eapply a_and; [eapply a_and; [apply a_cspace; [exact Ho|]|apply a_elm_ref]|now apply a_cspace].
    cbn. lia.
Qed.
Lemma term_one : forall e s lp rp, factor_ok e s lp rp -> term_ok e s lp rp.
Proof.
  intros e s lp rp [Hs H]. split; [exact Hs|]. intros n a d tail rest v L P Hr Hf Ht. unfold multitive.
  replace (a ++ s ++ d ++ tail) with ((a ++ s ++ d) ++ tail) by now rewrite <- !app_assoc.
  eapply a_chain_left1; [|exact Ht]. now apply H.
Qed.
Lemma expr_one : forall e s lp rp, term_ok e s lp rp -> expr_ok e s lp rp.
Proof.
  intros e s lp rp [Hs H]. split; [exact Hs|]. intros n a d tail rest v L P Hr Hf Ht. unfold additive.
  replace (a ++ s ++ d ++ tail) with ((a ++ s ++ d ++ []) ++ tail) by now rewrite app_nil_r, <- !app_assoc.
  eapply a_chain_left1; [|exact Ht]. apply H; try assumption.
  - now apply stop_follow.
  - now apply a_rest_nil, r_mul_op.
Qed.
Lemma term_more : forall c g l r sl al dl lp rp a b tr ar dr lp2 rp2,
  In c (bs "*/") -> (if (c =? chr "*")%N then Some (@CMultiply D) else if (c =? chr "/")%N then Some (@CDivide D) else None) = Some g ->
  pads lp rp al dl -> term_ok l sl lp rp -> cws a -> cws b -> pads lp2 rp2 ar dr -> factor_ok r tr lp2 rp2 ->
  padded (term_ok (g l r)) ((al ++ sl ++ dl) ++ a ++ [c] ++ b ++ (ar ++ tr ++ dr)).
Proof.
  intros c g l r sl al dl lp rp a b tr ar dr lp2 rp2 Hc Hg (Pa & Pd & Pl & Pr) [Hs H] Ha Hb (Qa & Qd & Ql & Qr) [Ht H2].
  exists al, (sl ++ (dl ++ a) ++ [c] ++ (b ++ ar) ++ tr), dr, lp, rp2. split; [|split; [|split]].
  - now rewrite <- !app_assoc.
  - repeat split; assumption.
  - now apply solid_app.
  - intros n a' d' tail rest v L (Ra & Rd & Rl & Rr) Hr Hf Hv. rewrite !app_length in L.
    destruct (split_ws rp (cws_app Pd Ha)) as (dd & o & Edo & Hdd & Ho & Sd & So). rewrite Edo.
    replace (a' ++ (sl ++ (dd ++ o) ++ [c] ++ (b ++ ar) ++ tr) ++ d' ++ tail) with
      (a' ++ sl ++ dd ++ ((o ++ [c] ++ (b ++ ar)) ++ (tr ++ d') ++ tail)) by now rewrite <- !app_assoc.
    apply H.
    + lia.
    + repeat split; assumption.
    + intros Er. rewrite (So Er). cbn. cbn in Hc. lia.
    + rewrite <- !app_assoc. apply ws_follow; [exact Ho|]. cbn in Hc |- *. tauto.
    + eapply a_rest_cons.
      * unfold mul_op. eapply a_cop with (c := c); [cbn in Hc |- *; intuition|cbn in Hc |- *; tauto|exact Hg|exact Ho|now apply cws_app|].
        rewrite <- app_assoc. now apply solid_no_ws.
      * change (tr ++ d') with ([] ++ tr ++ d'). apply H2; try assumption; [lia|]. repeat split; try assumption; constructor.
      * exact Hv.
      * apply cop_ne.
Qed.
Lemma expr_more : forall c g l r sl al dl lp rp a b tr ar dr lp2 rp2,
  In c (bs "+-") -> (if (c =? chr "+")%N then Some (@CAdd D) else if (c =? chr "-")%N then Some (@CSub D) else None) = Some g ->
  pads lp rp al dl -> expr_ok l sl lp rp -> cws a -> cws b -> pads lp2 rp2 ar dr -> term_ok r tr lp2 rp2 ->
  padded (expr_ok (g l r)) ((al ++ sl ++ dl) ++ a ++ [c] ++ b ++ (ar ++ tr ++ dr)).
Proof.
  intros c g l r sl al dl lp rp a b tr ar dr lp2 rp2 Hc Hg (Pa & Pd & Pl & Pr) [Hs H] Ha Hb (Qa & Qd & Ql & Qr) [Ht H2].
  exists al, (sl ++ (dl ++ a) ++ [c] ++ (b ++ ar) ++ tr), dr, lp, rp2. split; [|split; [|split]].
  - now rewrite <- !app_assoc.
  - repeat split; assumption.
  - now apply solid_app.
  - intros n a' d' tail rest v L (Ra & Rd & Rl & Rr) Hr Hf Hv. rewrite !app_length in L.
    destruct (split_ws rp (cws_app Pd Ha)) as (dd & o & Edo & Hdd & Ho & Sd & So). rewrite Edo.
    replace (a' ++ (sl ++ (dd ++ o) ++ [c] ++ (b ++ ar) ++ tr) ++ d' ++ tail) with
      (a' ++ sl ++ dd ++ ((o ++ [c] ++ (b ++ ar)) ++ (tr ++ d') ++ tail)) by now rewrite <- !app_assoc.
    apply H.
    + lia.
    + repeat split; assumption.
    + intros Er. rewrite (So Er). cbn. cbn in Hc. lia.
    + exists o, ([c] ++ (b ++ ar) ++ (tr ++ d') ++ tail ++ rest). rewrite <- !app_assoc. repeat split; [exact Ho|]. cbn in Hc |- *. tauto.
    + eapply a_rest_cons.
      * unfold add_op. eapply a_cop with (c := c); [cbn in Hc |- *; intuition|cbn in Hc |- *; tauto|exact Hg|exact Ho|now apply cws_app|].
        rewrite <- app_assoc. now apply solid_no_ws.
      * replace (tr ++ d') with ([] ++ tr ++ d' ++ []) by now rewrite app_nil_r. apply H2.
        -- lia.
        -- repeat split; try assumption; constructor.
        -- exact Hr.
        -- now apply stop_follow.
        -- now apply a_rest_nil, r_mul_op.
      * exact Hv.
      * apply cop_ne.
Qed.
Lemma calc_complete3 :
  (forall e s, factor e s -> padded (factor_ok e) s) /\
  (forall e s, term e s -> padded (term_ok e) s) /\
  (forall e s, gexpr e s -> padded (expr_ok e) s).
Proof.
  apply (@calc_ind3 D dec (fun e s _ => padded (factor_ok e) s) (fun e s _ => padded (term_ok e) s) (fun e s _ => padded (expr_ok e) s)).
  - intros s d H1 H2. exists [], s, [], false, false. split; [now rewrite app_nil_r|]. split; [repeat split; constructor|]. now apply number_ok.
  - intros e s _ (a & s' & d & lp & rp & -> & P & H). eapply sign_ok; [cbn; tauto|reflexivity|exact P|exact H].
  - intros e s _ (a & s' & d & lp & rp & -> & P & H). eapply sign_ok; [cbn; tauto|reflexivity|exact P|exact H].
  - intros a b c d e s Ha Hb _ (ae & s' & de & lp & rp & -> & P & H) Hc Hd.
    exists a, (bs "(" ++ b ++ (ae ++ s' ++ de) ++ c ++ bs ")"), d, true, true. split; [now rewrite <- !app_assoc|]. split; [repeat split; try assumption; discriminate|].
    eapply paren_ok; eassumption.
  - intros e s _ (a & s' & d & lp & rp & -> & P & H). exists a, s', d, lp, rp. split; [reflexivity|]. split; [exact P|]. now apply term_one.
  - intros l r s a b t _ (al & sl & dl & lp & rp & -> & P & H) Ha Hb _ (ar & tr & dr & lp2 & rp2 & -> & P2 & H2).
    eapply (@term_more (chr "*")); try eassumption; [cbn; tauto|reflexivity].
  - intros l r s a b t _ (al & sl & dl & lp & rp & -> & P & H) Ha Hb _ (ar & tr & dr & lp2 & rp2 & -> & P2 & H2).
    eapply (@term_more (chr "/")); try eassumption; [cbn; tauto|reflexivity].
  - intros e s _ (a & s' & d & lp & rp & -> & P & H). exists a, s', d, lp, rp. split; [reflexivity|]. split; [exact P|]. now apply expr_one.
  - intros l r s a b t _ (al & sl & dl & lp & rp & -> & P & H) Ha Hb _ (ar & tr & dr & lp2 & rp2 & -> & P2 & H2).
    eapply (@expr_more (chr "+")); try eassumption; [cbn; tauto|reflexivity].
  - intros l r s a b t _ (al & sl & dl & lp & rp & -> & P & H) Ha Hb _ (ar & tr & dr & lp2 & rp2 & -> & P2 & H2).
    eapply (@expr_more (chr "-")); try eassumption; [cbn; tauto|reflexivity].
Qed.
Lemma calc_complete : forall e s, gexpr e s -> calculator nd dec s 0 = Success e (length s).
Proof.
  intros e s H. destruct (proj2 (proj2 calc_complete3) e s H) as (a & s' & d & lp & rp & -> & P & [Hs Ha]).
  unfold calculator.
  assert (A : acc (calculator_fuel nd dec (S (length (a ++ s' ++ d)))) (a ++ s' ++ d) [] e).
  { unfold calculator_fuel. rewrite <- (app_nil_r (a ++ s' ++ d)) at 2. eapply a_skip_right; [|apply a_end].
    rewrite <- (app_nil_r d) at 2. apply Ha.
    - rewrite !app_length. lia.
    - exact P.
    - intros _. exact I.
    - exists [], []. repeat split. constructor.
    - apply a_rest_nil, r_add_op. exists [], []. repeat split. constructor. }
  specialize (A []). cbn [app List.length] in A. now rewrite app_nil_r in A.
Qed.
End Facts.
