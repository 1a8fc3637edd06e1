(** C154: what the calculator writes to the log. *)
From Verif Require Import PropsI Hoare Runs JsonSpec JsonFacts CalcSpec CalcFacts Log LogToys LogCalc.
From Verif Require Import Base Core Comb Closure Text Calc.
From Coq Require Import Sorting.Sorted.
Set Implicit Arguments.
Local Open Scope string_scope.
Local Open Scope nat_scope.
Local Open Scope list_scope.

(** The numbers of a tree, from left to right. *)
Fixpoint numbers {D} (e : cexpr D) : list D :=
  match e with
  | CValue d => [d]
  | CAdd l r => numbers l ++ numbers r
  | CSub l r => numbers l ++ numbers r
  | CMultiply l r => numbers l ++ numbers r
  | CDivide l r => numbers l ++ numbers r
  | CPlus e => numbers e
  | CMinus e => numbers e
  | CParen e => numbers e
  end.
(** Places that go up from [a]. *)
Fixpoint asc (a : nat) (ps : list nat) : Prop := match ps with [] => True | i :: t => a <= i /\ asc (S i) t end.
Lemma asc_le : forall ps a b, a <= b -> asc b ps -> asc a ps.
Proof. intros [|i t] a b L H; [exact I|]. destruct H as [H1 H2]. split; [lia|exact H2]. Qed.
Lemma asc_app : forall ps a b qs, asc a ps -> Forall (fun i => i < b) ps -> a <= b -> asc b qs -> asc a (ps ++ qs).
Proof.
  induction ps as [|i t IH]; intros a b qs H F L Hq; [exact (@asc_le qs a b L Hq)|]. destruct H as [H1 H2]. inversion F as [|? ? Fi Ft]; subst. split; [exact H1|]. apply (IH (S i) b); try assumption.
Qed.
Lemma nodup_app : forall (ps qs : list nat) b, NoDup ps -> Forall (fun i => i < b) ps -> NoDup qs -> Forall (fun i => b <= i) qs -> NoDup (ps ++ qs).
Proof.
  induction ps as [|i t IH]; intros qs b H F Hq G; [exact Hq|]. inversion H as [|? ? Hi Ht]; subst. inversion F as [|? ? Fi Ft]; subst. cbn [app]. constructor; [|now apply (IH qs b)].
  intros K. apply in_app_or in K as [K|K]; [contradiction|]. rewrite Forall_forall in G. specialize (G _ K). lia.
Qed.

Section Calc.
Variable D : Type.
Variable nd : N -> bool.
Hypothesis nd_ascii : ascii_class nd.
Variable dec : list N -> D + unit.
Variable on : list N -> list N.
Definition rest_line (inp : list N) (off : nat) : Log.line := Line LDebug (bs "regex: input = " ++ on (skipn off inp)).
(** At [off] stands the number [d]. *)
Definition stands (inp : list N) (off : nat) (d : D) : Prop := exists s, find_decimal nd (skipn off inp) = Some s /\ dec s = inl d.
Definition clean_run {A} (lv : A -> list D) (inp : list N) (off : nat) (r : outcome N A * list Log.line) : Prop := exists ps,
  snd r = map (rest_line inp) ps /\ NoDup ps /\ Forall (fun i => off <= i <= length inp) ps /\
  match fst r with Success v n => asc off ps /\ Forall (fun i => i < off + n) ps /\ Forall2 (stands inp) ps (lv v) | _ => True end.
Definition clean {A} (lv : A -> list D) (g : wparser A) : Prop := forall inp off, clean_run lv inp off (g inp off).

Lemma cl_leaf : forall A (lv : A -> list D) p, (forall v, lv v = []) -> clean lv (w_leaf p).
Proof. intros A lv p H inp off. exists []. repeat split; try constructor. cbn. destruct (p inp off); try exact I. rewrite H. repeat split; constructor. Qed.
Lemma cl_one : forall A B (lv : A -> list D) (lv' : B -> list D) (k : parser N A -> parser N B) g,
  (forall o inp off v n, k (fun _ _ => o) inp off = Success v n -> exists x, o = Success x n /\ lv' v = lv x) -> clean lv g -> clean lv' (w_one k g).
Proof.
  intros A B lv lv' k g K H inp off. destruct (H inp off) as (ps & E & N & F & S). unfold w_one. destruct (g inp off) as [o w]. cbn [fst snd] in *. exists ps. repeat split; try assumption.
  cbn [fst]. destruct (k _ inp off) as [v n| | |] eqn:Ek; try exact I. destruct (K _ _ _ _ _ Ek) as (x & -> & ->). exact S.
Qed.
Lemma cl_map : forall A B (lv : A -> list D) (lv' : B -> list D) g f, (forall x, lv' (f x) = lv x) -> clean lv g -> clean lv' (w_map g f).
Proof. intros A B lv lv' g f K. apply cl_one. intros o inp off v n E. unfold p_map in E. destruct o as [x m| | |]; try discriminate. injection E as <- <-. now exists x. Qed.
(** The second parser starts where the first ended. *)
Lemma cl_two : forall A B C (l1 : A -> list D) (l2 : B -> list D) (lv : C -> list D) (k : parser N A -> parser N B -> parser N C) g h,
  (forall p q inp off v n, k p q inp off = Success v n -> exists x n1 y n2, p inp off = Success x n1 /\ q inp (off + n1) = Success y n2 /\ n = n1 + n2 /\ lv v = l1 x ++ l2 y) ->
  clean l1 g -> clean l2 h -> clean lv (w_two k g h).
Proof.
  intros A B C l1 l2 lv k g h K H1 H2 inp off. destruct (H1 inp off) as (ps & E & N & F & S). unfold w_two. destruct (g inp off) as [o w]. cbn [fst snd] in *.
  assert (Z : forall q, (forall x n, o <> Success x n) -> clean_run lv inp off (k (fun _ _ => o) q inp off, w)).
  { intros q Hno. exists ps. repeat split; try assumption. cbn [fst]. destruct (k _ q inp off) as [v n| | |] eqn:Ek; try exact I. destruct (K _ _ _ _ _ _ Ek) as (x & n1 & y & n2 & Eo & _). now apply Hno in Eo. }
  destruct o as [x n1|e c| |]; try (apply Z; discriminate). destruct S as (S1 & S2 & S3). destruct (H2 inp (off + n1)) as (qs & E' & N' & F' & S'). destruct (h inp (off + n1)) as [o2 w2]. cbn [fst snd] in *.
  exists (ps ++ qs). cbn [fst snd]. repeat split.
  - rewrite map_app. congruence.
  - apply (nodup_app N S2 N'). eapply Forall_impl; [|exact F']. cbn. lia.
  - apply Forall_app. split; [exact F|]. eapply Forall_impl; [|exact F']. cbn. lia.
  - destruct (k _ _ inp off) as [v n| | |] eqn:Ek; try exact I. destruct (K _ _ _ _ _ _ Ek) as (x' & m1 & y & n2 & Eo & Eo2 & -> & L). injection Eo as <- <-. subst o2. destruct S' as (T1 & T2 & T3). repeat split.
    + eapply asc_app; [exact S1|exact S2|lia|exact T1].
    + apply Forall_app. split; [eapply Forall_impl; [|exact S2]|eapply Forall_impl; [|exact T2]]; cbn; lia.
    + rewrite L. now apply Forall2_app.
Qed.
Lemma cl_and : forall A B l1 l2 (g : wparser A) (h : wparser B), clean l1 g -> clean l2 h -> clean (fun v => l1 (fst v) ++ l2 (snd v)) (w_and g h).
Proof.
  intros A B l1 l2 g h. apply cl_two. intros p q inp off v n E. unfold p_and in E. destruct (p inp off) as [x n1| | |]; try discriminate. destruct (q inp (off + n1)) as [y n2| | |] eqn:Eq; try discriminate.
  injection E as <- <-. now exists x, n1, y, n2.
Qed.
Lemma cl_skip_left : forall A B l2 p (h : wparser B), clean l2 h -> clean l2 (w_skip_left (w_leaf (p : parser N A)) h).
Proof.
  intros A B l2 p0 h H. eapply cl_two with (l1 := fun _ => []); [|now apply cl_leaf|exact H]. intros p q inp off v n E. unfold p_skip_left in E. destruct (p inp off) as [x n1| | |]; try discriminate.
  destruct (q inp (off + n1)) as [y n2| | |] eqn:Eq; try discriminate. injection E as <- <-. now exists x, n1, y, n2.
Qed.
Lemma cl_skip_right : forall A B l1 (g : wparser A) q, clean l1 g -> clean l1 (w_skip_right g (w_leaf (q : parser N B))).
Proof.
  intros A B l1 g q0 H. eapply cl_two with (l2 := fun _ => []); [|exact H|now apply cl_leaf]. intros p q inp off v n E. unfold p_skip_right in E. destruct (p inp off) as [x n1| | |]; try discriminate.
  destruct (q inp (off + n1)) as [y n2| | |] eqn:Eq; try discriminate. injection E as <- <-. exists x, n1, y, n2. now rewrite app_nil_r.
Qed.
(** Operators that are never empty and put two trees together. *)
Definition joins (q : parser N (cexpr D -> cexpr D -> cexpr D)) : Prop :=
  forall inp off f n, q inp off = Success f n -> 0 < n /\ forall x y, numbers (f x y) = numbers x ++ numbers y.
Lemma cl_rest : forall g q, joins q -> clean numbers g -> forall fuel x inp off, exists ps,
  snd (w_rest fuel g (w_leaf q) x inp off) = map (rest_line inp) ps /\ NoDup ps /\ Forall (fun i => off <= i <= length inp) ps /\
  match fst (w_rest fuel g (w_leaf q) x inp off) with
  | Success v n => asc off ps /\ Forall (fun i => i < off + n) ps /\ exists ds, numbers v = numbers x ++ ds /\ Forall2 (stands inp) ps ds
  | _ => True
  end.
Proof.
  intros g q J H. assert (Z : forall x inp off, exists ps : list nat, ([] : list Log.line) = map (rest_line inp) ps /\ NoDup ps /\ Forall (fun i => off <= i <= length inp) ps /\
    asc off ps /\ Forall (fun i => i < off + 0) ps /\ exists ds, numbers (x : cexpr D) = numbers x ++ ds /\ Forall2 (stands inp) ps ds).
  { intros x inp off. exists []. repeat split; try constructor. exists []. rewrite app_nil_r. repeat constructor. }
  assert (Y : forall inp off, exists ps : list nat, ([] : list Log.line) = map (rest_line inp) ps /\ NoDup ps /\ Forall (fun i => off <= i <= length inp) ps /\ True).
  { intros inp off. exists []. repeat split; constructor. }
  induction fuel as [|fuel IH]; intros x inp off; cbn [w_rest]; [apply Y|]. unfold w_leaf at 1 3. destruct (q inp off) as [f n1|e [|]| |] eqn:Eq; cbn [fst snd]; try apply Y; [|apply Z].
  destruct (J _ _ _ _ Eq) as [Hn Hf]. destruct (H inp (off + n1)) as (ps & E & N & F & S). destruct (g inp (off + n1)) as [[y n2|e c| |] w2]; cbn [fst snd] in *.
  - destruct S as (S1 & S2 & S3). specialize (IH (f x y) inp (off + n1 + n2)). destruct IH as (qs & E' & N' & F' & S'). destruct (w_rest fuel g (w_leaf q) (f x y) inp (off + n1 + n2)) as [r w3]. cbn [fst snd app] in *.
    exists (ps ++ qs). repeat split.
    + rewrite map_app. congruence.
    + apply (nodup_app N S2 N'). eapply Forall_impl; [|exact F']. cbn. lia.
    + apply Forall_app. split; [eapply Forall_impl; [|exact F]|eapply Forall_impl; [|exact F']]; cbn; lia.
    + destruct r as [v n|e c| |]; cbn [advance_success add_commit p_or]; unfold p_or; try exact I.
      * destruct S' as (T1 & T2 & ds & T3 & T4). repeat split.
        -- apply (@asc_le _ off (off + n1)); [lia|]. eapply asc_app; [exact S1|exact S2|lia|exact T1].
        -- apply Forall_app. split; [eapply Forall_impl; [|exact S2]|eapply Forall_impl; [|exact T2]]; cbn; lia.
        -- exists (numbers y ++ ds). rewrite T3, Hf, app_assoc. split; [reflexivity|]. now apply Forall2_app.
      * destruct (Nat.eqb_spec n1 0); [lia|]. destruct c; exact I.
  - exists ps. unfold p_or. cbn [advance_success add_commit]. destruct (Nat.eqb_spec n1 0); [lia|]. cbn. repeat split; try assumption; [eapply Forall_impl; [|exact F]; cbn; lia|destruct c; exact I].
  - exists ps. repeat split; try assumption. eapply Forall_impl; [|exact F]. cbn. lia.
  - exists ps. repeat split; try assumption. eapply Forall_impl; [|exact F]. cbn. lia.
Qed.
Lemma cl_chain : forall g q, joins q -> clean numbers g -> clean numbers (w_chain_left1 g (w_leaf q)).
Proof.
  intros g q J H inp off. unfold w_chain_left1. destruct (H inp off) as (ps & E & N & F & S). destruct (g inp off) as [[x n|e c| |] w]; try (exists ps; now repeat split). cbn [fst snd] in *.
  destruct S as (S1 & S2 & S3). destruct (cl_rest J H (chain_fuel inp (off + n)) x inp (off + n)) as (qs & E' & N' & F' & S'). destruct (w_rest _ g (w_leaf q) x inp (off + n)) as [r w2]. cbn [fst snd] in *.
  exists (ps ++ qs). cbn [fst snd]. repeat split.
  - rewrite map_app. congruence.
  - apply (nodup_app N S2 N'). eapply Forall_impl; [|exact F']. cbn. lia.
  - apply Forall_app. split; [eapply Forall_impl; [|exact F]|eapply Forall_impl; [|exact F']]; cbn; lia.
  - destruct r as [v m|e c| |]; cbn [advance_success add_commit]; try exact I. destruct S' as (T1 & T2 & ds & T3 & T4). repeat split.
    + eapply asc_app; [exact S1|exact S2|lia|exact T1].
    + apply Forall_app. split; [eapply Forall_impl; [|exact S2]|eapply Forall_impl; [|exact T2]]; cbn; lia.
    + rewrite T3. now apply Forall2_app.
Qed.

(** ** The leaves *)
Lemma sign_at : forall inp off c n, p_or (p_elm_ref (chr "+")) (p_elm_ref (chr "-")) inp off = Success c n -> n = 1 /\ exists r, skipn off inp = c :: r /\ (c = chr "+" \/ c = chr "-").
Proof.
  intros inp off c n E. unfold p_or, p_elm_ref, p_elm_ref_eq, p_elm_pred_ref, ps_input, slice_from in E. destruct (off <=? length inp); [|discriminate]. destruct (skipn off inp) as [|x r]; [discriminate|].
  destruct (N.eqb_spec x (chr "+")) as [->|_]; [injection E as <- <-; split; [reflexivity|exists r; auto]|]. cbn [failed_with_uncommitted negb] in E.
  destruct (N.eqb_spec x (chr "-")) as [->|_]; [injection E as <- <-; split; [reflexivity|exists r; auto]|discriminate].
Qed.
Lemma open_at : forall inp off v n, p_and (p_and c_space (p_elm_ref (chr "("))) c_space inp off = Success v n -> 0 < n /\ exists c r, skipn off inp = c :: r /\ (c < 128)%N /\ ~ digit c.
Proof.
  intros inp off v n E. assert (L : off <= length inp).
  { unfold p_and at 1 2 in E. destruct (c_space inp off) as [u k|e b| |]; try discriminate. unfold p_elm_ref, p_elm_ref_eq, p_elm_pred_ref, ps_input, slice_from in E.
    destruct (off + k <=? length inp) eqn:G; [|discriminate]. apply Nat.leb_le in G. lia. }
  pose proof (@h_cparen (chr "(") (fun _ s => exists c r, s = c :: r /\ (c < 128)%N /\ ~ digit c)) as H.
  assert (K : hoare (p_and (p_and c_space (p_elm_ref (chr "("))) c_space) (fun _ s => exists c r, s = c :: r /\ (c < 128)%N /\ ~ digit c)).
  { apply H. intros _ a b Ha _. destruct a as [|x a]; [exists (chr "("), b; split; [reflexivity|unfold digit; cbn; lia]|]. exists x, (a ++ chr "(" :: b). split; [reflexivity|].
    inversion Ha as [|? ? Hx _]; subst. cbn in Hx. unfold digit. lia. }
  specialize (K inp off L). rewrite E in K. destruct K as (_ & c & r & Ec & Hc). destruct n as [|n]; [discriminate|]. split; [lia|]. destruct (skipn off inp) as [|y t]; [discriminate|]. cbn in Ec. injection Ec as -> _.
  now exists c, t.
Qed.
Lemma no_number : forall c r, (c < 128)%N -> ~ digit c -> find_decimal nd (c :: r) = None.
Proof. intros c r L H. unfold find_decimal. cbn [span]. destruct (nd c) eqn:E; [apply nd_ascii in E; [contradiction|exact L]|reflexivity]. Qed.
(** The run of value. *)
Lemma value_run : forall inp off, match wc_value nd dec on inp off with
  | (Success v n, w) => off <= length inp /\ w = [rest_line inp off] /\ 0 < n /\ exists d, v = CValue d /\ stands inp off d
  | (Failure e c, w) => off <= length inp /\ w = [rest_line inp off]
  | (Panic, w) => w = []
  | (Diverge, w) => False
  end.
Proof.
  intros inp off. unfold wc_value, w_map, w_one, w_regex, p_regex, ps_input, slice_from, rest_line, stands. destruct (Nat.leb_spec off (length inp)) as [L|L]; [|reflexivity].
  unfold p_map, p_map_res, ps_input, slice_from. destruct (find_decimal nd (skipn off inp)) as [s|] eqn:Ef; [|now split]. destruct (dec s) as [d|u] eqn:Ed.
  - repeat split; [exact L| |exists d; split; [reflexivity|now exists s]].
    destruct s as [|x s]; [|cbn [utf8_len fold_right]; unfold utf8_len_char; repeat match goal with |- context [if ?b then _ else _] => destruct b end; lia].
    exfalso. clear -Ef. unfold find_decimal in Ef. destruct (span nd (skipn off inp)) as [[|a l] [|y t]]; try discriminate. destruct (y =? chr ".")%N; [|discriminate]. destruct (span nd t) as [[|? ?] ?]; discriminate.
  - apply Nat.leb_le in L. rewrite L. apply Nat.leb_le in L. now split.
Qed.
Lemma value_no : forall inp off c r, skipn off inp = c :: r -> (c < 128)%N -> ~ digit c -> exists e, wc_value nd dec on inp off = (Failure e false, [rest_line inp off]) /\ off <= length inp.
Proof.
  intros inp off c r E L H. assert (G : off <= length inp) by (destruct (Nat.le_gt_cases off (length inp)) as [G|G]; [exact G|rewrite skipn_all2 in E; [discriminate|lia]]).
  unfold wc_value, w_map, w_one, w_regex, p_regex, ps_input, slice_from, rest_line, p_map, p_map_res. pose proof G as G'. apply Nat.leb_le in G'. rewrite G', E, (no_number r L H). eexists. now split.
Qed.
Lemma cl_add_last : forall A (lv : A -> list D) inp off ps e, NoDup ps -> Forall (fun i => S off <= i <= length inp) ps -> off <= length inp ->
  clean_run lv inp off (Failure e false, map (rest_line inp) ps ++ [rest_line inp off]).
Proof.
  intros A lv inp off ps e N F L. exists (ps ++ [off]). cbn [fst snd]. repeat split; [now rewrite map_app| |].
  - apply NoDup_rev in N. rewrite <- (rev_involutive (ps ++ [off])). apply NoDup_rev. rewrite rev_app_distr. cbn. constructor; [|exact N]. intros K. apply in_rev in K. rewrite Forall_forall in F. specialize (F _ K). lia.
  - apply Forall_app. split; [eapply Forall_impl; [|exact F]; cbn; lia|]. constructor; [lia|constructor].
Qed.

(** ** The grammar *)
Lemma cl_primary : forall g h, clean numbers g -> clean numbers h -> clean numbers (wc_primary_step nd dec on g h).
Proof.
  intros g h Hg Hh inp off.
  assert (Nil : forall A (o : outcome N A), (forall v n, o <> Success v n) -> clean_run (fun _ => []) inp off (o, [])).
  { intros A o Ho. exists []. repeat split; try constructor. cbn. destruct o as [v n| | |]; try exact I. now destruct (Ho v n). }
  assert (P0 : clean_run numbers inp off (wc_primary0 nd dec on h inp off)).
  { assert (Pa : clean numbers (w_map (w_surround (w_leaf (p_and (p_and c_space (p_elm_ref (chr "("))) c_space)) h (w_leaf (p_and (p_and c_space (p_elm_ref (chr ")"))) c_space))) (@CParen D)))
      by (apply cl_map with (lv := numbers); [reflexivity|]; now apply cl_skip_left, cl_skip_right).
    specialize (Pa inp off). unfold wc_primary0, w_or. unfold w_map, w_one, w_surround, w_skip_left at 1, w_two, w_leaf at 1 in Pa. unfold w_map, w_one, w_surround, w_skip_left at 1, w_two, w_leaf at 1.
    destruct (p_and (p_and c_space (p_elm_ref (chr "("))) c_space inp off) as [u n|e [|]| |] eqn:Eo; cbn [p_map p_skip_left] in Pa |- *; unfold p_map, p_skip_left in Pa |- *; try exact Pa.
    - destruct (open_at _ _ Eo) as (Hn & c & r & Ec & Lc & Dc). destruct (value_no inp off Ec Lc Dc) as (e & Ev & Lo).
      assert (S : clean numbers (w_skip_right h (w_leaf (p_and (p_and c_space (p_elm_ref (chr ")"))) c_space)))) by now apply cl_skip_right.
      destruct (S inp (off + n)) as (ps & Ep & Np & Fp & _). destruct (w_skip_right h _ inp (off + n)) as [o2 w2]. cbn [snd app] in Ep. subst w2.
      destruct o2 as [v m|e' [|]| |]; cbn [app] in Pa |- *; try exact Pa. rewrite Ev. apply cl_add_last; [exact Np|eapply Forall_impl; [|exact Fp]; cbn; lia|exact Lo].
    - pose proof (value_run inp off) as V. destruct (wc_value nd dec on inp off) as [[v n|e' c| |] w]; cbn [app].
      + destruct V as (L & -> & Hn & d & -> & Hd). exists [off]. cbn [fst snd numbers]. repeat split; [repeat constructor; intros []|repeat constructor; lia|apply le_n|repeat constructor; lia|repeat constructor; exact Hd].
      + destruct V as (L & ->). exists [off]. cbn [fst snd]. repeat split; [repeat constructor; intros []|repeat constructor; lia].
      + subst w. exists []. repeat split; constructor.
      + contradiction. }
  unfold wc_primary_step, w_or, wc_unary. assert (U : clean numbers (wc_unary g)).
  { unfold wc_unary. eapply cl_one; [|apply cl_and with (l1 := fun _ => []); [now apply cl_leaf|exact Hg]]. intros o i f v n E. unfold p_map_panic in E. destruct o as [[c x] m| | |]; try discriminate.
    exists (c, x). cbn [fst snd app]. destruct (c =? chr "-")%N; [injection E as <- <-; now split|]. destruct (c =? chr "+")%N; [injection E as <- <-; now split|discriminate]. }
  specialize (U inp off). unfold wc_unary in U. revert U. unfold w_map_panic, w_one, w_and, w_two, w_leaf. destruct (p_or (p_elm_ref (chr "+")) (p_elm_ref (chr "-")) inp off) as [c n|e [|]| |] eqn:Es.
  - destruct (sign_at _ _ Es) as (-> & r & Ec & Hc). destruct (Hg inp (off + 1)) as (ps & Ep & Np & Fp & _). destruct (g inp (off + 1)) as [o2 w2]. cbn [snd app] in Ep. subst w2. cbn [app].
    intros U. destruct (p_map_panic _ _ inp off) as [v m|e [|]| |] eqn:Em; try exact U. clear U.
    assert (Lc : (c < 128)%N /\ ~ digit c) by (unfold digit; destruct Hc as [->| ->]; cbn; lia).
    destruct (value_no inp off Ec (proj1 Lc) (proj2 Lc)) as (e' & Ev & Lo).
    assert (Op : exists e, p_and (p_and c_space (p_elm_ref (chr "("))) c_space inp off = Failure e false).
    { assert (R : rej (p_and (p_and c_space (p_elm_ref (chr "("))) c_space) (c :: r) false).
      { apply r_and1. change (c :: r) with ([] ++ c :: r). eapply r_and2; [apply a_cspace; [constructor|destruct Hc as [->| ->]; cbn; lia]|]. apply r_elm_ref. destruct Hc as [->| ->]; discriminate. }
      specialize (R (firstn off inp)). rewrite <- Ec, firstn_skipn, firstn_length_le in R by exact Lo. exact R. }
    destruct Op as [e2 Op]. unfold wc_primary0, w_or, w_map, w_one, w_surround, w_skip_left, w_two, w_leaf at 1. rewrite Op. cbn [p_map p_skip_left]. unfold p_map, p_skip_left. rewrite Ev. cbn [app].
    apply cl_add_last; [exact Np|eapply Forall_impl; [|exact Fp]; cbn; lia|exact Lo].
  - intros U. exact U.
  - intros _. unfold p_map_panic, p_and. destruct (wc_primary0 nd dec on h inp off) as [o w]. exact P0.
  - intros U. exact U.
  - intros U. exact U.
Qed.
Lemma sign_joins : joins (@mul_op D) /\ joins (@add_op D).
Proof.
  assert (K : forall a b (f : N -> option (cexpr D -> cexpr D -> cexpr D)), (forall c h, f c = Some h -> forall x y, numbers (h x y) = numbers x ++ numbers y) ->
    joins (p_map_panic (p_skip_right (p_skip_left c_space (p_or (p_elm_ref a) (p_elm_ref b))) c_space) f)).
  { intros a b f Hf inp off h n E. unfold p_map_panic, p_skip_right, p_skip_left in E. destruct (c_space inp off) as [u k| | |]; try discriminate.
    destruct (p_or (p_elm_ref a) (p_elm_ref b) inp (off + k)) as [c m| | |] eqn:Ep; try discriminate. destruct (c_space inp _) as [u' k'| | |]; try discriminate.
    destruct (f c) as [h'|] eqn:Ef; [|discriminate]. injection E as <- <-. split; [|now apply (Hf c)].
    unfold p_or, p_elm_ref, p_elm_ref_eq, p_elm_pred_ref in Ep. destruct (ps_input inp (off + k)) as [[|x r]|]; try discriminate. destruct (x =? a)%N; [injection Ep as _ <-; lia|]. cbn in Ep.
    destruct (x =? b)%N; [injection Ep as _ <-; lia|discriminate]. }
  split; apply K; intros c h; repeat match goal with |- context [if ?b then _ else _] => destruct b; [intros E; injection E as <-; reflexivity|] end; discriminate.
Qed.
Lemma cl_additive : forall g, clean numbers g -> clean numbers (wc_additive g).
Proof. intros g H. apply cl_chain; [apply sign_joins|]. apply cl_chain; [apply sign_joins|exact H]. Qed.
Lemma cl_primary_fuel : forall n, clean numbers (wc_primary_fuel nd dec on n).
Proof.
  induction n as [|n IH]; [|cbn [wc_primary_fuel]; apply cl_primary; [exact IH|now apply cl_additive]]. intros inp off. exists []. repeat split; constructor.
Qed.
Lemma cl_calculator : clean numbers (wc_calculator nd dec on).
Proof. intros inp off. exact (cl_skip_right p_end (cl_additive (cl_primary_fuel (S (length inp)))) inp off). Qed.

(** ** The first line *)
Definition begins_with {A} (l : Log.line) (r : outcome N A * list Log.line) : Prop := exists w, snd r = l :: w.
Lemma be_two : forall A B C (k : parser N A -> parser N B -> parser N C) (g : wparser A) h inp off l, begins_with l (g inp off) -> begins_with l (w_two k g h inp off).
Proof. intros A B C k g h inp off l [w E]. unfold w_two. destruct (g inp off) as [[v n|e c| |] w1]; cbn [snd] in E; subst w1; try (now exists w). destruct (h inp (off + n)) as [o2 w2]. now exists (w ++ w2). Qed.
Lemma be_chain : forall A (g : wparser A) h inp off l, begins_with l (g inp off) -> begins_with l (w_chain_left1 g h inp off).
Proof. intros A g h inp off l [w E]. unfold w_chain_left1. destruct (g inp off) as [[v n|e c| |] w1]; cbn [snd] in E; subst w1; try (now exists w). destruct (w_rest _ g h v inp (off + n)) as [o2 w2]. now exists (w ++ w2). Qed.
Lemma first_primary : forall g h inp, match inp with [] => True | c :: _ => ~ In c (bs "+-( " ++ [9; 13; 10]%N) end -> begins_with (rest_line inp 0) (wc_primary_step nd dec on g h inp 0).
Proof.
  intros g h inp Hc. assert (Ne : forall k, In k (bs "+-( " ++ [9; 13; 10]%N) -> match inp with [] => True | x :: _ => x <> k end) by (intros k Hk; destruct inp as [|c r]; [exact I|]; cbn; intros ->; contradiction).
  assert (Hw : no_ws inp) by (destruct inp as [|c r]; [exact I|]; cbn in Hc |- *; intuition).
  assert (Re : forall k, In k (bs "+-( " ++ [9; 13; 10]%N) -> rej (p_elm_ref k) inp false) by (intros k Hk; apply r_elm_ref, Ne, Hk).
  assert (R1 : rej (p_or (p_elm_ref (chr "+")) (p_elm_ref (chr "-"))) inp false) by (apply r_or; apply Re; cbn; tauto).
  assert (R2 : rej (p_and (p_and c_space (p_elm_ref (chr "("))) c_space) inp false).
  { apply r_and1. change inp with ([] ++ inp). eapply r_and2; [apply a_cspace; [constructor|exact Hw]|]. apply Re. cbn. tauto. }
  destruct (R1 []) as [e1 E1]. destruct (R2 []) as [e2 E2]. cbn [app length] in E1, E2.
  unfold wc_primary_step, wc_unary, wc_primary0, w_or, w_map_panic, w_map, w_one, w_and, w_surround, w_skip_left, w_two, w_leaf. rewrite E1, E2. unfold p_map_panic, p_and, p_map, p_skip_left. cbn [app].
  pose proof (value_run inp 0) as V. destruct (wc_value nd dec on inp 0) as [[v n|e c| |] w] eqn:Ev; cbn [app].
  - destruct V as (_ & -> & _). now exists [].
  - destruct V as (_ & ->). now exists [].
  - exfalso. unfold wc_value, w_map, w_one, w_regex, p_regex, ps_input, slice_from, p_map, p_map_res, ps_input, slice_from in Ev. cbn in Ev. destruct (find_decimal nd inp) as [s|]; [destruct (dec s)|]; discriminate.
  - contradiction.
Qed.
End Calc.

(** ** C154 *)
(** What the calculator reads is what it reads without the logger. *)
Theorem C154_outcome : forall D nd (dec : list N -> D + unit) on text, fst (wc_calculator nd dec on text 0) = calculator nd dec text 0.
Proof. intros D nd dec on text. apply e_calculator. Qed.

(** An accepted text: one line for each number of the tree, in the order of the text, which tells the text from that number on. *)
Theorem C154_numbers : forall D nd (dec : list N -> D + unit) on text e n w, ascii_class nd -> wc_calculator nd dec on text 0 = (Success e n, w) ->
  exists ps, w = map (fun i => Line LDebug (bs "regex: input = " ++ on (skipn i text))) ps /\ StronglySorted lt ps /\
    Forall2 (fun i d => exists s, find_decimal nd (skipn i text) = Some s /\ dec s = inl d) ps (numbers e).
Proof.
  intros D nd dec on text e n w Hnd E. destruct (@cl_calculator D nd Hnd dec on text 0) as (ps & Ew & _ & _ & S). rewrite E in Ew, S. cbn [fst snd] in Ew, S. destruct S as (S1 & _ & S3).
  exists ps. split; [exact Ew|]. split; [|exact S3]. clear -S1. revert S1. generalize 0. induction ps as [|i t IH]; intros a H; [constructor|]. destruct H as [_ H]. constructor; [now apply (IH (S i))|].
  clear -H. assert (K : forall t a, i < a -> asc a t -> Forall (lt i) t); [|apply (K t (S i)); [lia|exact H]]. clear. induction t as [|j t IH]; intros a L H; [constructor|]. destruct H as [H1 H2]. constructor; [lia|]. apply (IH (S j)); [lia|exact H2].
Qed.

(** Any text: every line tells the text from some place on, and no place has two lines; so there is at most one line more than the text has characters. *)
Theorem C154_once : forall D nd (dec : list N -> D + unit) on text, ascii_class nd ->
  (exists ps, snd (wc_calculator nd dec on text 0) = map (fun i => Line LDebug (bs "regex: input = " ++ on (skipn i text))) ps /\ NoDup ps /\ Forall (fun i => i <= length text) ps) /\
  length (snd (wc_calculator nd dec on text 0)) <= S (length text).
Proof.
  intros D nd dec on text Hnd. destruct (@cl_calculator D nd Hnd dec on text 0) as (ps & Ew & N & F & _). split.
  - exists ps. split; [exact Ew|]. split; [exact N|]. eapply Forall_impl; [|exact F]. cbn. lia.
  - rewrite Ew, map_length. rewrite <- (seq_length (S (length text)) 0). apply NoDup_incl_length; [exact N|]. intros i Hi. apply in_seq. rewrite Forall_forall in F. specialize (F _ Hi). lia.
Qed.

(** A text that begins with neither a sign nor a parenthesis nor layout: the first line tells the whole text, also if no number stands there. *)
Theorem C154_first : forall D nd (dec : list N -> D + unit) on text, match text with [] => True | c :: _ => ~ In c (bs "+-( " ++ [9; 13; 10]%N) end ->
  exists w, snd (wc_calculator nd dec on text 0) = Line LDebug (bs "regex: input = " ++ on text) :: w.
Proof.
  intros D nd dec on text H. unfold wc_calculator, w_skip_right, wc_additive, wc_multitive. apply be_two, be_chain, be_chain. cbn [wc_primary_fuel]. now apply first_primary.
Qed.

(** *** Cases *)
Definition told_calc (s : string) := (match fst (wc_calculator nd0 dec0 (fun l => l) (bs s) 0) with Success e _ => Some (numbers e) | _ => None end,
  map (fun l => skipn 15 (l_text l)) (snd (wc_calculator nd0 dec0 (fun l => l) (bs s) 0))).
Example C154_text : told_calc "1+2*3+1" = (Some [1; 2; 3; 1]%Z, [bs "1+2*3+1"; bs "2*3+1"; bs "3+1"; bs "1"]).
Proof. vm_compute. reflexivity. Qed.
Example C154_nested : told_calc " ( -12 / (3) )" = (Some [12; 3]%Z, [bs "12 / (3) )"; bs "3) )"]) /\ ascii_class nd0.
Proof. split; [vm_compute; reflexivity|exact nd0_ok]. Qed.
(** Rejected texts: as many lines as there can be, and a place that is tried after later ones. *)
Example C154_rejected : told_calc "((" = (None, [[]; bs "("; bs "(("]) /\ told_calc "-(1" = (None, [bs "1"; bs "(1"; bs "-(1"]) /\ told_calc "x" = (None, [bs "x"]) /\ told_calc "" = (None, [[]]).
Proof. vm_compute. repeat split. Qed.
Print Assumptions C154_outcome.
Print Assumptions C154_numbers.
Print Assumptions C154_once.
Print Assumptions C154_first.
