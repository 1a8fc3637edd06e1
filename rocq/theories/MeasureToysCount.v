(** How many closures a run of the toys parsers calls at most.  What is read again is what an opening bracket left unfinished, so a text is read
    again a bounded number of times for each of them. *)
From Verif Require Import Base Core Comb Closure RepFacts LitFacts ChainFacts Hoare Runs ChainRules Text Agree Json JsonSpec JsonFacts Calc CalcFacts Toys ToysSyntax ToysParse ToysParseSound ToysParseComplete
  Measure MeasureJson MeasureCount MeasureUri MeasureUriCount MeasureToys MeasureToysAtoms.
From Coq Require Import ZArith Lia.
Set Implicit Arguments.
Local Open Scope string_scope.
Local Open Scope nat_scope.
Local Open Scope list_scope.

(** The opening brackets. *)
Definition is_mark (c : N) : bool := ((c =? chr "(") || (c =? chr "[") || (c =? chr "{"))%N.
Definition marks (l : list N) : nat := length (filter is_mark l).
Lemma marks_app : forall a b, marks (a ++ b) = marks a + marks b.
Proof. intros a b. unfold marks. now rewrite filter_app, app_length. Qed.
Lemma skipn_skipn' : forall (l : list N) i k, skipn k (skipn i l) = skipn (i + k) l.
Proof. induction l as [|x l IH]; intros [|i] k; cbn [skipn plus]; try reflexivity; [now rewrite skipn_nil|]. apply IH. Qed.
Lemma skipn_split : forall (l : list N) i j, i <= j -> skipn i l = firstn (j - i) (skipn i l) ++ skipn j l.
Proof.
  intros l i j H. rewrite <- (firstn_skipn (j - i) (skipn i l)) at 1. f_equal. rewrite skipn_skipn'. f_equal. lia.
Qed.
Lemma marks_skip : forall l i j, i <= j -> marks (skipn j l) <= marks (skipn i l).
Proof. intros l i j H. rewrite (skipn_split l H), marks_app. lia. Qed.
Lemma marks_at : forall l i s c, i <= s -> nth_error l s = Some c -> is_mark c = true -> S (marks (skipn (S s) l)) <= marks (skipn i l).
Proof.
  intros l i s c H E M. apply Nat.le_trans with (marks (skipn s l)); [|now apply marks_skip]. clear i H. revert s E. induction l as [|x l IH]; intros [|s] E; try discriminate.
  - injection E as ->. cbn [skipn]. unfold marks at 2. cbn [filter]. rewrite M. cbn [length]. unfold marks. lia.
  - cbn [skipn]. now apply IH.
Qed.

(** ** Places of a text *)
(** White space and the characters of words. *)
Definition soft (c : N) : bool := existsb (N.eqb c) [32; 9; 13; 10]%N || ident_char c.
Definition softs (inp : list N) (i j : nat) : Prop := i <= j /\ forall k, i <= k < j -> exists c, nth_error inp k = Some c /\ soft c = true.
Lemma softs_nil : forall inp i, softs inp i i.
Proof. intros inp i. split; [apply le_n|]. intros k H. lia. Qed.
Lemma softs_app : forall inp i j k, softs inp i j -> softs inp j k -> softs inp i k.
Proof. intros inp i j k [H1 H2] [H3 H4]. split; [lia|]. intros x Hx. destruct (Nat.lt_ge_cases x j); [apply H2; lia|apply H4; lia]. Qed.
Lemma nth_skip : forall (inp : list N) i k, nth_error (skipn i inp) k = nth_error inp (i + k).
Proof. induction inp as [|x inp IH]; intros [|i] k; try reflexivity; cbn [skipn plus]; [now destruct k|]. apply IH. Qed.
Lemma softs_text : forall inp off d s, firstn d (skipn off inp) = s -> off + d <= length inp -> Forall (fun c => soft c = true) s -> softs inp off (off + d).
Proof.
  intros inp off d s E L F. split; [lia|]. intros k Hk. assert (Ls : length s = d) by (subst s; rewrite firstn_length, skipn_length; lia).
  destruct (nth_error s (k - off)) as [c|] eqn:Q; [|apply nth_error_None in Q; lia]. exists c. rewrite Forall_forall in F. split; [|apply F; now apply nth_error_In in Q].
  replace k with (off + (k - off)) by lia. rewrite <- nth_skip, <- (firstn_skipn d (skipn off inp)), E, nth_error_app1 by lia. exact Q.
Qed.
(** The first other character from [off] on: it is at [p], and is [c]. *)
Definition gate (inp : list N) (off p : nat) (c : N) : Prop := softs inp off p /\ nth_error inp p = Some c /\ soft c = false.
Lemma gate_once : forall inp off p c p' c', gate inp off p c -> gate inp off p' c' -> p = p' /\ c = c'.
Proof.
  intros inp off p c p' c' ([H1 H2] & H3 & H4) ([H1' H2'] & H3' & H4').
  assert (p = p'); [|subst p'; split; congruence].
  destruct (Nat.lt_trichotomy p p') as [L|[L|L]]; [|exact L|]; exfalso.
  - destruct (H2' p ltac:(lia)) as (x & X1 & X2). congruence.
  - destruct (H2 p' ltac:(lia)) as (x & X1 & X2). congruence.
Qed.
Lemma gate_from : forall inp i j p c, softs inp i j -> gate inp j p c -> gate inp i p c.
Proof. intros inp i j p c H (H1 & H2 & H3). split; [now apply softs_app with j|now split]. Qed.
Lemma gate_upto : forall inp i j p c, gate inp i p c -> softs inp i j -> j <= p /\ gate inp j p c.
Proof.
  intros inp i j p c ([H1 H2] & H3 & H4) [J1 J2]. assert (L : j <= p).
  { destruct (Nat.le_gt_cases j p) as [L|L]; [exact L|]. destruct (J2 p ltac:(lia)) as (x & X1 & X2). congruence. }
  split; [exact L|]. split; [|now split]. split; [exact L|]. intros k Hk. apply H2. lia.
Qed.
(** Nothing that may follow an expression, but perhaps the word to. *)
Definition dead (inp : list N) (i : nat) : Prop := exists c, nth_error inp i = Some c /\
  (ident_char c = true \/ c = chr "(" \/ c = chr "[" \/ c = chr "{" \/ c = chr "=" /\ nth_error inp (S i) <> Some (chr "=")).

Section Count.
Variable nd : N -> bool.
Hypothesis nd_ascii : forall x, (x < 128)%N -> (nd x = true <-> digit x).
(** The length of the text, and a bound on the calls of the parsers without recursion. *)
Variables n a : nat.
Hypothesis Ha : 128 * S n <= a.
Definition unit_cost := 512 * a.
Definition pot (inp : list N) (off : nat) : nat := unit_cost * (S (n - off) * 16 ^ marks (skipn off inp)).
Lemma pow_pos : forall k, 1 <= 16 ^ k.
Proof. intros k. pose proof (Nat.pow_nonzero 16 k). lia. Qed.
Lemma pot_pos : forall inp off, unit_cost <= pot inp off.
Proof. intros inp off. unfold pot. pose proof (pow_pos (marks (skipn off inp))). nia. Qed.
Lemma pot_le : forall inp i j, i <= j -> pot inp j <= pot inp i.
Proof. intros inp i j H. unfold pot. apply Nat.mul_le_mono_l, Nat.mul_le_mono; [lia|]. apply Nat.pow_le_mono_r; [lia|]. now apply marks_skip. Qed.
Lemma pot_step : forall inp i j, i < j -> j <= n -> pot inp j + unit_cost <= pot inp i.
Proof.
  intros inp i j H L. unfold pot. assert (P : 16 ^ marks (skipn j inp) <= 16 ^ marks (skipn i inp)) by (apply Nat.pow_le_mono_r; [lia|]; apply marks_skip; lia).
  pose proof (pow_pos (marks (skipn i inp))) as Q. replace (S (n - i)) with (S (n - j) + (j - i)) by lia. nia.
Qed.
Lemma pot_at : forall inp i s c, i <= s -> S s <= n -> nth_error inp s = Some c -> is_mark c = true -> 16 * pot inp (S s) + 16 * unit_cost <= pot inp i.
Proof.
  intros inp i s c H L E M. pose proof (@marks_at inp i s c H E M) as K. unfold pot. assert (P : 16 ^ S (marks (skipn (S s) inp)) <= 16 ^ marks (skipn i inp)) by (apply Nat.pow_le_mono_r; [lia|exact K]).
  rewrite Nat.pow_succ_r' in P. pose proof (pow_pos (marks (skipn (S s) inp))) as Q. remember (16 ^ marks (skipn (S s) inp)) as x. remember (16 ^ marks (skipn i inp)) as y.
  replace (S (n - i)) with (S (n - S s) + (S s - i)) by lia. assert (16 * (S (n - S s) * x) + 16 <= (S (n - S s) + (S s - i)) * y) by nia. nia.
Qed.

(** ** Runs and what they cost: [pay] bounds a run that succeeds together with the potential of what is left; where an expression cannot go on
    ([dead]), the run alone. *)
Definition upto {A} (c : nat) (g : mparser A) : Prop := forall inp off, length inp = n -> off <= n -> cnt (snd (g inp off)) <= c.
Definition ok {A} (dd : list N -> nat -> Prop) (pay : nat) (g : mparser A) (inp : list N) (off : nat) : Prop :=
  match fst (g inp off) with
  | Success _ d => off + d <= n /\ 1 <= d /\ (cnt (snd (g inp off)) + pot inp (off + d) <= pay \/ dd inp (off + d) /\ cnt (snd (g inp off)) <= pay)
  | _ => cnt (snd (g inp off)) <= pay
  end.
Definition never : list N -> nat -> Prop := fun _ _ => False.
(** From every place of a text, with [e] to spare. *)
Definition pays {A} (dd : list N -> nat -> Prop) (e : nat) (g : mparser A) : Prop := forall inp off, length inp = n -> off <= n -> exists pay, pay + e <= pot inp off /\ ok dd pay g inp off.
Definition inward {A} (g : mparser A) : Prop := forall inp off v d, length inp = n -> off <= n -> fst (g inp off) = Success v d -> off + d <= n /\ 1 <= d.
Lemma iw_within : forall A (g : mparser A), within 1 g -> inward g.
Proof. intros A g H inp off v d L Ho E. destruct (H (S n) inp off v d) as [H1 H2]; [lia|lia|exact E|lia]. Qed.
Lemma ok_le : forall A dd p p' (g : mparser A) inp off, ok dd p g inp off -> p <= p' -> ok dd p' g inp off.
Proof. intros A dd p p' g inp off H L. unfold ok in *. destruct (g inp off) as [[v d|er c| |] m]; cbn [fst snd] in *; [|lia..]. destruct H as (H1 & H2 & H3). repeat split; try assumption. destruct H3 as [H3|[D H3]]; [left; lia|right; split; [exact D|lia]]. Qed.
Lemma ok_one : forall A B (k : parser N A -> parser N B) dd p (g : mparser A) inp off, keeps k -> ok dd p g inp off -> ok dd (S p) (m_one k g) inp off.
Proof.
  intros A B k dd p g inp off K H. unfold ok, m_one in *. destruct (g inp off) as [o m]. cbn [fst snd up cnt] in *.
  destruct (k (fun _ _ => o) inp off) as [v d|er c| |] eqn:E; [destruct (K _ _ _ _ _ E) as [x ->]|..].
  - destruct H as (H1 & H2 & H3). repeat split; try assumption. destruct H3 as [H3|[D H3]]; [left; lia|right; split; [exact D|lia]].
  - destruct o as [x d| | |]; [|lia..]. destruct H as (_ & _ & [H|[_ H]]); lia.
  - destruct o as [x d| | |]; [|lia..]. destruct H as (_ & _ & [H|[_ H]]); lia.
  - destruct o as [x d| | |]; [|lia..]. destruct H as (_ & _ & [H|[_ H]]); lia.
Qed.
Lemma pays_one : forall A B (k : parser N A -> parser N B) dd e (g : mparser A), keeps k -> pays dd (S e) g -> pays dd e (m_one k g).
Proof. intros A B k dd e g K H inp off L Ho. destruct (H inp off L Ho) as (p & Hp & H1). exists (S p). split; [lia|]. now apply ok_one. Qed.
Definition failed {A} (o : outcome N A) : Prop := match o with Success _ _ => False | _ => True end.
Definition stops {A} (g : mparser A) : Prop := forall inp off, length inp = n -> dead inp off -> failed (fst (g inp off)).

(** ** Chains *)
Section Chain.
Variable g : mparser expr.
Variable h : mparser (expr -> expr -> expr).
Variable e : nat.
Hypothesis He : a + 4 <= e.
Hypothesis Pg : pays dead e g.
Hypothesis Uh : upto a h.
Hypothesis Ih : inward h.
Hypothesis Sh : stops h.
Lemma rest_dead : forall fuel x inp off, length inp = n -> off <= n -> dead inp off ->
  cnt (snd (m_rest fuel g h x inp off)) <= a + 3 /\ forall v d, fst (m_rest fuel g h x inp off) = Success v d -> d = 0.
Proof.
  intros fuel x inp off L Ho D. destruct fuel as [|fuel]; [cbn; split; [lia|discriminate]|]. cbn [m_rest]. unfold m_or, m_leaf. pose proof (Uh inp L Ho) as U. pose proof (Sh L D) as S0. clear Uh Sh Ih Pg.
  destruct (h inp off) as [[f k|er c| |] m]; cbn [fst snd cnt up both failed] in *; [contradiction|..]; [destruct c|..]; cbn [fst snd cnt up both]; (split; [lia|]); intros v d E; try discriminate. now inv E.
Qed.
Lemma rest_pays : forall fuel x inp off, length inp = n -> off <= n ->
  match fst (m_rest fuel g h x inp off) with
  | Success _ d => off + d <= n /\ (cnt (snd (m_rest fuel g h x inp off)) + pot inp (off + d) <= pot inp off + a + 3 \/ dead inp (off + d) /\ cnt (snd (m_rest fuel g h x inp off)) <= pot inp off + a + 3)
  | _ => cnt (snd (m_rest fuel g h x inp off)) <= pot inp off + a + 3
  end.
Proof.
  induction fuel as [|fuel IH]; intros x inp off L Ho; [cbn [m_rest fst snd cnt]; lia|]. cbn [m_rest]. unfold m_or, m_leaf. pose proof (Uh inp L Ho) as U. pose proof (fun f d => @Ih inp off f d L Ho) as I0.
  destruct (h inp off) as [[f n1|er c| |] m]; cbn [fst snd cnt up both] in *; [|destruct c; cbn [fst snd cnt up both]; [lia|split; [lia|left; rewrite Nat.add_0_r; lia]]|lia..].
  destruct (I0 f n1 eq_refl) as [I1 I2]. pose proof (@pot_step inp off (off + n1) ltac:(lia) I1) as P1. unfold unit_cost in P1. destruct (Pg inp L I1) as (pay & Hpay & G). unfold ok in G.
  destruct (g inp (off + n1)) as [[y n2|er c| |] m2]; cbn [fst snd cnt up both] in *.
  - destruct G as (G1 & G2 & G3). replace (off + n1 + n2) with (off + (n1 + n2)) in * by lia. destruct G3 as [G3|[D G3]].
    + specialize (IH (f x y) inp (off + (n1 + n2)) L G1). destruct (m_rest fuel g h (f x y) inp (off + (n1 + n2))) as [[z n3|er c| |] m3]; cbn [fst snd cnt up both advance_success add_commit] in *.
      * replace (off + (n3 + n2 + n1)) with (off + (n1 + n2) + n3) by lia. destruct IH as [IH1 IH2]. split; [lia|]. destruct IH2 as [IH2|[D IH2]]; [left; lia|right; split; [exact D|lia]].
      * destruct n1; [lia|]. destruct c; cbn [negb Nat.eqb orb cs_or fst snd cnt up both]; lia.
      * lia.
      * lia.
    + pose proof (@rest_dead fuel (f x y) inp (off + (n1 + n2)) L G1 D) as [R1 R2]. destruct (m_rest fuel g h (f x y) inp (off + (n1 + n2))) as [[z n3|er c| |] m3]; cbn [fst snd cnt up both advance_success add_commit] in *.
      * rewrite (R2 z n3 eq_refl) in *. cbn [plus]. rewrite (Nat.add_comm n2 n1). split; [lia|]. right. split; [exact D|lia].
      * destruct n1; [lia|]. destruct c; cbn [negb Nat.eqb orb cs_or fst snd cnt up both]; lia.
      * lia.
      * lia.
  - destruct n1; [lia|]. destruct c; cbn [advance_success add_commit negb Nat.eqb orb cs_or]; cbn [fst snd cnt up both]; lia.
  - lia.
  - lia.
Qed.
Lemma ok_chain : forall p inp off, length inp = n -> off <= n -> ok dead p g inp off -> ok dead (p + a + 4) (m_chain_left1 g h) inp off.
Proof.
  intros p inp off L Ho G. unfold ok, m_chain_left1 in *. destruct (g inp off) as [[x d|er c| |] m]; cbn [fst snd cnt up both] in *; [|lia..].
  destruct G as (G1 & G2 & G3). destruct G3 as [G3|[D G3]].
  - pose proof (@rest_pays (chain_fuel inp (off + d)) x inp (off + d) L G1) as R. destruct (m_rest _ g h x inp (off + d)) as [[z n3|er c| |] m3]; cbn [fst snd cnt up both advance_success add_commit] in *; [|lia..].
    replace (off + (n3 + d)) with (off + d + n3) by lia. destruct R as [R1 R2]. repeat split; [lia|lia|]. destruct R2 as [R2|[D R2]]; [left; lia|right; split; [exact D|lia]].
  - pose proof (@rest_dead (chain_fuel inp (off + d)) x inp (off + d) L G1 D) as [R1 R2]. destruct (m_rest _ g h x inp (off + d)) as [[z n3|er c| |] m3]; cbn [fst snd cnt up both advance_success add_commit] in *; [|lia..].
    rewrite (R2 z n3 eq_refl) in *. cbn [plus]. repeat split; [lia|lia|]. right. split; [exact D|lia].
Qed.
Lemma pays_chain : forall e', e' + a + 4 <= e -> pays dead e' (m_chain_left1 g h).
Proof. intros e' L' inp off L Ho. destruct (Pg inp L Ho) as (p & Hp & H1). exists (p + a + 4). split; [lia|]. now apply ok_chain. Qed.
End Chain.

(** ** Runs and where they end *)
Definition wp {A} (g : mparser A) (inp : list N) (off : nat) (Q : nat -> nat -> Prop) (F : nat -> Prop) : Prop :=
  match fst (g inp off) with Success _ d => Q (off + d) (cnt (snd (g inp off))) | _ => F (cnt (snd (g inp off))) end.
Lemma wp_mono : forall A (g : mparser A) inp off (Q Q' : nat -> nat -> Prop) (F F' : nat -> Prop),
  wp g inp off Q F -> (forall p c, Q p c -> Q' p c) -> (forall c, F c -> F' c) -> wp g inp off Q' F'.
Proof. intros A g inp off Q Q' F F' H HQ HF. unfold wp in *. destruct (fst (g inp off)); auto. Qed.
(** A combinator that succeeds when its parser does, with the same length. *)
Definition plain {A B} (k : parser N A -> parser N B) : Prop := forall o inp off, match o with Success _ d => exists w, k (fun _ _ => o) inp off = Success w d | _ => failed (k (fun _ _ => o) inp off) end.
Lemma wp_one : forall A B (k : parser N A -> parser N B) (g : mparser A) inp off Q F, plain k -> wp g inp off (fun p c => Q p (S c)) (fun c => F (S c)) -> wp (m_one k g) inp off Q F.
Proof.
  intros A B k g inp off Q F K H. unfold wp, m_one in *. destruct (g inp off) as [o m]. specialize (K o inp off). cbn [fst snd up cnt] in *.
  destruct o as [v d|er c| |]; [destruct K as [w ->]; exact H|..]; destruct (k _ inp off); try contradiction; exact H.
Qed.
Lemma pl_map : forall A B (f : A -> B), plain (fun p => p_map p f).
Proof. intros A B f o inp off. destruct o as [v d|er c| |]; cbn; [now eexists|exact I..]. Qed.
Lemma pl_attempt : forall A, plain (@p_attempt N A).
Proof. intros A o inp off. destruct o as [v d|er c| |]; cbn; [now eexists|destruct c; exact I|exact I..]. Qed.
Lemma pl_lazy : forall A, plain (fun p : parser N A => p_lazy (fun _ => p)).
Proof. intros A o inp off. destruct o as [v d|er c| |]; cbn; [now eexists|exact I..]. Qed.
Lemma pl_name : forall A s, plain (fun p : parser N A => p_name p s).
Proof. intros A s o inp off. destruct o as [v d|er c| |]; cbn; [now eexists|destruct (is_custom er); exact I|exact I..]. Qed.
Definition plain2 {A B C} (k : parser N A -> parser N B -> parser N C) : Prop := forall o o2 inp off,
  match o with Success _ d => match o2 with Success _ d2 => exists w, k (fun _ _ => o) (fun _ _ => o2) inp off = Success w (d + d2) | _ => failed (k (fun _ _ => o) (fun _ _ => o2) inp off) end
  | _ => failed (k (fun _ _ => o) p_diverge inp off) end.
Lemma wp_two : forall A B C (k : parser N A -> parser N B -> parser N C) (g : mparser A) (h : mparser B) inp off Q F, plain2 k ->
  wp g inp off (fun p c => wp h inp p (fun p' c' => Q p' (S (c + c'))) (fun c' => F (S (c + c')))) (fun c => F (S c)) -> wp (m_two k g h) inp off Q F.
Proof.
  intros A B C k g h inp off Q F K H. unfold wp, m_two in *. destruct (g inp off) as [o m]. cbn [fst snd up cnt] in *.
  destruct o as [v d|er c| |]; [destruct (h inp (off + d)) as [o2 m2]; specialize (K (Success v d) o2 inp off); cbn [fst snd up cnt both] in *; destruct o2 as [v2 d2|er c| |]; [destruct K as [w ->]; now rewrite <- Nat.add_assoc in H|..]|
    specialize (K (Failure er c) Diverge inp off)|specialize (K Panic Diverge inp off)|specialize (K Diverge Diverge inp off)]; cbn [fst snd up cnt both] in *; destruct (k _ _ inp off); try contradiction; exact H.
Qed.
Lemma pl_and : forall A B, plain2 (@p_and N A B).
Proof. intros A B o o2 inp off. destruct o as [v d|er c| |]; [destruct o2 as [v2 d2|er c| |]|..]; cbn; try exact I. rewrite ?(Nat.add_comm d2 d). now eexists. Qed.
Lemma pl_skip_left : forall A B, plain2 (@p_skip_left N A B).
Proof. intros A B o o2 inp off. destruct o as [v d|er c| |]; [destruct o2 as [v2 d2|er c| |]|..]; cbn; try exact I. rewrite ?(Nat.add_comm d2 d). now eexists. Qed.
Lemma pl_skip_right : forall A B, plain2 (@p_skip_right N A B).
Proof. intros A B o o2 inp off. destruct o as [v d|er c| |]; [destruct o2 as [v2 d2|er c| |]|..]; cbn; try exact I. rewrite ?(Nat.add_comm d2 d). now eexists. Qed.
Lemma wp_or : forall A (g h : mparser A) inp off (Q : nat -> nat -> Prop) (F : nat -> Prop),
  wp g inp off (fun p c => Q p (S c)) (fun c => F (S c) /\ wp h inp off (fun p c' => Q p (S (c + c'))) (fun c' => F (S (c + c')))) -> wp (m_or g h) inp off Q F.
Proof.
  intros A g h inp off Q F H. unfold wp, m_or in *. destruct (g inp off) as [[v d|er [|]| |] m]; cbn [fst snd up cnt] in *; try tauto.
  destruct H as [_ H]. destruct (h inp off) as [o2 m2]. exact H.
Qed.
Lemma wp_opt : forall A (g : mparser A) inp off (Q : nat -> nat -> Prop) (F : nat -> Prop),
  wp g inp off (fun p c => Q p (S (S (S c)))) (fun c => F (S (S (S c))) /\ Q off (S (S (S (S c))))) -> wp (m_opt g) inp off Q F.
Proof.
  intros A g inp off Q F H. unfold m_opt. apply wp_or. apply wp_one; [apply pl_map|]. apply wp_one; [apply pl_attempt|]. eapply wp_mono; [exact H|auto|].
  cbv beta. intros c [H1 H2]. split; [exact H1|]. unfold wp, m_leaf, p_successful. cbn [fst snd cnt]. rewrite Nat.add_0_r. now replace (S (S (S c) + 1)) with (S (S (S (S c)))) by lia.
Qed.
Lemma ok_wp : forall A dd pay (g : mparser A) inp off,
  wp g inp off (fun p c => off < p /\ p <= n /\ (c + pot inp p <= pay \/ dd inp p /\ c <= pay)) (fun c => c <= pay) -> ok dd pay g inp off.
Proof. intros A dd pay g inp off H. unfold wp, ok in *. destruct (fst (g inp off)); try exact H. destruct H as (H1 & H2 & H3). repeat split; [lia|lia|exact H3]. Qed.
Lemma wp_ok : forall A dd pay (g : mparser A) inp off, ok dd pay g inp off ->
  wp g inp off (fun p c => off < p /\ p <= n /\ (c + pot inp p <= pay \/ dd inp p /\ c <= pay)) (fun c => c <= pay).
Proof. intros A dd pay g inp off H. unfold wp, ok in *. destruct (fst (g inp off)); try exact H. destruct H as (H1 & H2 & H3). repeat split; [lia|lia|exact H3]. Qed.
Lemma ok_or : forall A dd p1 p2 (g h : mparser A) inp off, ok dd p1 g inp off -> ok dd p2 h inp off -> ok dd (p1 + p2 + 1) (m_or g h) inp off.
Proof.
  intros A dd p1 p2 g h inp off H1 H2. apply ok_wp, wp_or. apply wp_ok in H1. apply wp_ok in H2. eapply wp_mono; [exact H1| |].
  - cbv beta. intros p c (L1 & L2 & [L3|[D L3]]); (split; [exact L1|split; [exact L2|]]); [left; lia|right; split; [exact D|lia]].
  - cbv beta. intros c Hc. split; [lia|]. eapply wp_mono; [exact H2| |cbv beta; intros; lia].
    cbv beta. intros p c' (L1 & L2 & [L3|[D L3]]); (split; [exact L1|split; [exact L2|]]); [left; lia|right; split; [exact D|lia]].
Qed.

(** ** Parsers without recursion *)
Definition trimmed (inp : list N) (p : nat) : Prop := match nth_error inp p with Some c => ~ is_ws c | None => True end.
Lemma ws_soft : forall w, ws w -> Forall (fun c => soft c = true) w.
Proof. intros w H. eapply Forall_impl; [|exact H]. cbv beta. intros c K. cbn in K. unfold soft. assert (c = 32 \/ c = 9 \/ c = 13 \/ c = 10)%N as [->|[->|[->| ->]]] by lia; reflexivity. Qed.
Lemma soft_not_ws : forall c, soft c = true -> ~ is_ws c -> ident_char c = true.
Proof.
  intros c H K. unfold soft in H. apply Bool.orb_true_iff in H. destruct H as [H|H]; [|exact H]. exfalso. apply K. unfold is_ws. apply existsb_exists in H. destruct H as (x & Hx & E). apply N.eqb_eq in E. now subst x.
Qed.
Lemma trim_space : forall inp off v d, off <= length inp -> t_space inp off = Success v d -> trimmed inp (off + d).
Proof.
  intros inp off v d Ho E. destruct (ws_split (skipn off inp)) as (w & r & Er & Hw & Hr). pose proof (@a_tspace w r Hw Hr (firstn off inp)) as K.
  rewrite <- Er, firstn_skipn, firstn_length, Nat.min_l in K by exact Ho. rewrite K in E. inv E. unfold trimmed. rewrite <- nth_skip, Er, nth_error_app2, Nat.sub_diag by lia. destruct r as [|x r]; [exact I|exact Hr].
Qed.
Lemma trim_spaced : forall A (p : parser N A) Q inp off v d, hoare p Q -> off <= length inp -> spaced p inp off = Success v d -> trimmed inp (off + d).
Proof.
  intros A p Q inp off v d H Ho E. unfold spaced in E. assert (K : hoare (p_skip_left t_space p) (fun _ _ => True)) by (eapply h_skip_left; [apply h_tspace|exact H|]; auto).
  specialize (K inp off Ho). unfold p_skip_right in E. destruct (p_skip_left t_space p inp off) as [x d1| | |]; try discriminate. destruct K as [K _].
  destruct (t_space inp (off + d1)) as [y d2| | |] eqn:E2; cbn in E; try discriminate. inv E. apply trim_space in E2; [|exact K]. now rewrite ?(Nat.add_comm d2 d1), Nat.add_assoc.
Qed.
Definition quick {A} (g : mparser A) (inp : list N) (off : nat) (E : nat -> Prop) : Prop := wp g inp off (fun p c => c <= a /\ p <= n /\ E p) (fun c => c <= a).
Lemma up_rest : forall A i j (g : mparser A), i + j <= 128 -> rest i j g -> upto a g.
Proof. intros A i j g L1 H inp off L Ho. specialize (H inp off ltac:(lia)). rewrite L in H. nia. Qed.
Lemma qu_hoare : forall A (g : mparser A) p Q inp off (E : nat -> Prop), upto a g -> erases g p -> hoare p Q -> length inp = n -> off <= n ->
  (forall v d, off + d <= n -> p inp off = Success v d -> Q v (firstn d (skipn off inp)) -> E (off + d)) -> quick g inp off E.
Proof.
  intros A g p Q inp off E U R H L Ho K. unfold quick, wp. specialize (U inp off L Ho). specialize (H inp off ltac:(lia)). rewrite R in *. destruct (p inp off) as [v d|er c| |] eqn:Ep; try exact U.
  destruct H as [H1 H2]. repeat split; [exact U|lia|]. apply (K v d); [lia|reflexivity|exact H2].
Qed.
Lemma led_at : forall inp off d t, off + d <= length inp -> ltok t (firstn d (skipn off inp)) ->
  exists s, softs inp off s /\ s + length t <= off + d /\ skipn s inp = t ++ skipn (s + length t) inp /\ softs inp (s + length t) (off + d).
Proof.
  intros inp off d t L (w & u & E & Hw & w' & -> & Hw'). exists (off + length w). assert (Ld : d = length w + (length t + length w')).
  { rewrite <- !app_length, <- E, firstn_length, skipn_length. lia. }
  assert (Sk : skipn off inp = w ++ t ++ w' ++ skipn d (skipn off inp)) by (rewrite <- (firstn_skipn d (skipn off inp)) at 1; rewrite E, <- !app_assoc; reflexivity).
  remember (skipn d (skipn off inp)) as z eqn:Ez. clear Ez.
  assert (S1 : skipn (off + length w) inp = t ++ w' ++ z).
  { rewrite <- skipn_skipn', Sk, skipn_app, skipn_all, Nat.sub_diag. reflexivity. }
  assert (S2 : skipn (off + length w + length t) inp = w' ++ z).
  { rewrite <- skipn_skipn', S1, skipn_app, skipn_all, Nat.sub_diag. reflexivity. }
  repeat split; try lia.
  - intros k Hk. assert (X : softs inp off (off + length w)); [|now apply X]. apply softs_text with w; [rewrite Sk, firstn_app, firstn_all, Nat.sub_diag; cbn [firstn]; apply app_nil_r|lia|now apply ws_soft].
  - now rewrite S2.
  - intros k Hk. assert (X : softs inp (off + length w + length t) (off + length w + length t + length w')); [|apply X; lia].
    apply softs_text with w'; [rewrite S2, firstn_app, firstn_all, Nat.sub_diag; cbn [firstn]; apply app_nil_r|lia|now apply ws_soft].
Qed.
Section Quick.
Variables (inp : list N) (off : nat).
Hypothesis L : length inp = n.
Hypothesis Ho : off <= n.
Lemma qu_tag1 : forall c, quick (mt_tag [c]) inp off (fun p => trimmed inp p /\ exists s, softs inp off s /\ s < p /\ nth_error inp s = Some c /\ softs inp (S s) p).
Proof.
  intros c. eapply qu_hoare; [eapply up_rest with (i := 4) (j := 11); [lia|apply re_ttag]|apply et_tag|apply h_ttag|exact L|exact Ho|]. cbv beta. intros v d Hd E K. split; [eapply trim_spaced; [apply h_tag with (R := fun _ _ => True); exact I|lia|exact E]|].
  destruct (led_at inp off d (t := [c]) ltac:(lia) K) as (s & H1 & H2 & H3 & H4). cbn [length] in *. exists s. repeat split; try apply H1; [lia| |rewrite Nat.add_1_r in H4; apply H4..].
  replace s with (s + 0) by lia. rewrite <- nth_skip, H3. reflexivity.
Qed.
Lemma qu_text : forall A (g : mparser A) p Q, upto a g -> erases g p -> hoare p Q -> (forall v s, Q v s -> Forall (fun c => soft c = true) s /\ s <> []) -> quick g inp off (fun p => softs inp off p /\ off < p).
Proof.
  intros A g p Q U R H K. eapply qu_hoare; [exact U|exact R|exact H|exact L|exact Ho|]. cbv beta. intros v d Hd E HQ. apply K in HQ. destruct HQ as [H1 H2]. split; [eapply softs_text; [reflexivity|lia|exact H1]|].
  destruct d; [|lia]. now elim H2.
Qed.
Lemma ltok_soft : forall t s, Forall (fun c => soft c = true) t -> t <> [] -> ltok t s -> Forall (fun c => soft c = true) s /\ s <> [].
Proof.
  intros t s Ht Hn (w & u & -> & Hw & w' & -> & Hw'). split; [repeat rewrite Forall_app; repeat split; try assumption; now apply ws_soft|]. intros E. apply app_eq_nil in E. destruct E as [_ E]. apply app_eq_nil in E. tauto.
Qed.
Lemma word_soft : forall x, word x -> Forall (fun c => soft c = true) x /\ x <> [].
Proof.
  assert (X : forall y, letter_ y \/ digit y -> soft y = true).
  { intros y H. unfold soft, ident_char, ident_start, in_range. apply Bool.orb_true_iff. right. unfold letter_, digit in H. change (chr "_") with 95%N. destruct H as [[H|[H|H]]|H]; apply Bool.orb_true_iff.
    - left. apply Bool.orb_true_iff. left. apply Bool.orb_true_iff. left. apply andb_true_intro. split; apply N.leb_le; lia.
    - left. apply Bool.orb_true_iff. left. apply Bool.orb_true_iff. right. apply andb_true_intro. split; apply N.leb_le; lia.
    - left. apply Bool.orb_true_iff. right. now apply N.eqb_eq.
    - right. apply andb_true_intro. split; apply N.leb_le; lia. }
  intros x (c & t & -> & Hc & Ht). split; [|discriminate]. constructor; [apply X; now left|]. eapply Forall_impl; [|exact Ht]. exact X.
Qed.
Lemma soft_end : forall d, off + d <= n -> Forall (fun c => soft c = true) (firstn d (skipn off inp)) -> softs inp off (off + d).
Proof. intros d H K. eapply softs_text; [reflexivity|lia|exact K]. Qed.
Lemma qu_ident : quick mt_ident inp off (fun p => softs inp off p /\ off < p /\ trimmed inp p).
Proof.
  eapply qu_hoare; [eapply up_rest with (i := 4) (j := 11); [lia|apply re_tident]|apply et_ident|apply h_ident|exact L|exact Ho|]. cbv beta. intros v d Hd E [Hv K].
  destruct (word_soft Hv) as [W1 W2]. destruct (ltok_soft W1 W2 K) as [K1 K2]. split; [now apply soft_end|split; [destruct d; [now elim K2|lia]|]].
  eapply trim_spaced; [apply h_word|lia|exact E].
Qed.
Lemma qu_space : quick mt_space inp off (fun p => softs inp off p /\ trimmed inp p).
Proof.
  eapply qu_hoare; [eapply up_rest with (i := 2) (j := 4); [lia|apply re_tspace]|apply et_space|apply h_tspace|exact L|exact Ho|]. cbv beta. intros v d Hd E K.
  split; [eapply softs_text; [reflexivity|lia|now apply ws_soft]|]. eapply trim_space; [lia|exact E].
Qed.
Lemma qu_letters : forall t, Forall (fun c => soft c = true) t -> t <> [] -> quick (m_tag t) inp off (fun p => softs inp off p /\ off < p).
Proof.
  intros t H K. eapply qu_text; [eapply up_rest with (i := 0) (j := 1); [lia|apply re_small, sm_tag]|apply er_leaf|apply h_tag with (R := fun _ s => s = t); reflexivity|]. intros v s ->. now split.
Qed.
Lemma qu_word : forall t, Forall (fun c => soft c = true) t -> t <> [] -> quick (mt_tag t) inp off (fun p => softs inp off p /\ off < p).
Proof.
  intros t H K. eapply qu_text; [eapply up_rest with (i := 4) (j := 11); [lia|apply re_ttag]|apply et_tag|apply h_ttag|]. intros v s Hs. cbv beta in Hs. now apply ltok_soft with t.
Qed.
Lemma qu_identifier : quick mt_identifier inp off (fun p => softs inp off p /\ off < p /\ trimmed inp p).
Proof.
  eapply qu_hoare; [eapply up_rest with (i := 4) (j := 14); [lia|apply re_tidentifier]|apply et_identifier|unfold identifier; apply h_name; eapply h_map with (R := fun _ s => exists x, word x /\ ltok x s); [apply h_ident|intros x s H; now exists x]|exact L|exact Ho|].
  cbv beta. intros v d Hd E (x & Hv & K). destruct (word_soft Hv) as [W1 W2]. destruct (ltok_soft W1 W2 K) as [K1 K2].
  split; [now apply soft_end|split; [destruct d; [now elim K2|lia]|]].
  unfold identifier, p_name, p_map in E. destruct (ident inp off) as [y dy|er c| |] eqn:Ei; try discriminate; [injection E as <- <-|destruct (is_custom er); discriminate]. eapply trim_spaced; [apply h_word|lia|exact Ei].
Qed.
Lemma qu_bool : quick mt_bool_literal inp off (fun p => softs inp off p /\ off < p /\ trimmed inp p).
Proof.
  pose (R := fun (e : expr) (s : list N) => exists t, (t = bs "true" \/ t = bs "false") /\ s = t).
  assert (HB : hoare (p_map_panic (p_or (p_attempt (p_tag (bs "true"))) (p_tag (bs "false"))) (hm_get [(bs "true", EBool true); (bs "false", EBool false)])) R).
  { eapply h_map_panic with (Q := fun v s => s = v /\ (v = bs "true" \/ v = bs "false")).
    - apply h_or; [apply h_attempt|]; apply h_tag; auto.
    - cbv beta. intros v s [-> [-> | ->]]; (eexists; split; [reflexivity|]); eexists; (split; [|reflexivity]); auto. }
  eapply qu_hoare; [eapply up_rest with (i := 4) (j := 17); [lia|apply re_tbool]|apply et_bool_literal| |exact L|exact Ho|].
  { unfold bool_literal. apply h_name. eapply h_spaced with (R := fun _ s => exists t, (t = bs "true" \/ t = bs "false") /\ ltok t s); [exact HB|]. intros v a0 s b H1 H2 (t & H & ->). exists t. split; [exact H|]. exists a0, (t ++ b). repeat split; [exact H1|now apply lx_tok]. }
  cbv beta. intros v d Hd E (x & Hv & K). assert (W : Forall (fun c => soft c = true) x /\ x <> []) by (destruct Hv as [-> | ->]; (split; [repeat (constructor; [reflexivity|]); constructor|discriminate])).
  destruct W as [W1 W2]. destruct (ltok_soft W1 W2 K) as [K1 K2].
  split; [now apply soft_end|split; [destruct d; [now elim K2|lia]|]].
  unfold bool_literal, p_name in E. destruct (spaced _ inp off) as [y dy|er c| |] eqn:Ei; try discriminate; [injection E as <- <-|destruct (is_custom er); discriminate]. eapply trim_spaced; [exact HB|lia|exact Ei].
Qed.
Lemma qu_integer : quick (mt_integer nd) inp off (fun p => off < p /\ trimmed inp p /\ (softs inp off p \/ exists s, gate inp off s (chr "-"))).
Proof.
  eapply qu_hoare with (Q := fun _ s => exists z t, int_text z t /\ ltok t s); [eapply up_rest with (i := 4) (j := 15); [lia|apply re_tinteger; exact nd_ascii]|apply et_integer| |exact L|exact Ho|].
  { unfold t_integer. apply h_name. eapply h_spaced; [eapply h_map with (R := fun e s => exists z, int_text z s); [apply (@h_int nd nd_ascii)|intros z s Hz; now exists z]|].
    cbv beta. intros v w s b H1 H2 (z & H). exists z, s. split; [exact H|]. exists w, (s ++ b). repeat split; [exact H1|now apply lx_tok]. }
  cbv beta. intros v d Hd E (z & t & Ht & K).
  assert (W : trimmed inp (off + d)).
  { unfold t_integer, p_name in E. destruct (spaced _ inp off) as [y dy|er c| |] eqn:Ei; try discriminate; [injection E as <- <-|destruct (is_custom er); discriminate].
    eapply trim_spaced; [|lia|exact Ei]. eapply h_map with (R := fun e s => True); [apply (@h_int nd nd_ascii)|auto]. }
  assert (DS : forall ds, digits1 ds -> Forall (fun c => soft c = true) ds).
  { intros ds [H _]. eapply Forall_impl; [|exact H]. intros c Hc. unfold digit in Hc. unfold soft, ident_char, in_range. apply Bool.orb_true_iff. right. apply Bool.orb_true_iff. right. apply andb_true_intro. split; apply N.leb_le; lia. }
  destruct Ht as (ds & Hds & Hs & _). destruct Hs as [[-> _]|[-> _]].
  - destruct (ltok_soft (DS _ Hds) (proj2 Hds) K) as [K1 K2]. repeat split; [destruct d; [now elim K2|lia]|exact W|]. left. eapply softs_text; [reflexivity|lia|exact K1].
  - destruct (led_at inp off d ltac:(lia) K) as (s & H1 & H2 & H3 & H4). cbn [length app bs] in *. repeat split; [pose proof (proj1 H1); lia|exact W|]. right. exists s. split; [exact H1|]. split; [|reflexivity].
    replace s with (s + 0) by lia. rewrite <- nth_skip, H3. reflexivity.
Qed.
Lemma qu_string : quick mt_string_literal inp off (fun p => off < p /\ gate inp off off 34%N).
Proof.
  eapply qu_hoare with (Q := fun _ s => exists t, s = 34%N :: t); [eapply up_rest with (i := 97) (j := 6); [lia|apply re_tstring]|apply et_string_literal| |exact L|exact Ho|].
  { unfold string_literal. apply h_name, h_attempt. eapply h_map; [apply h_string|]. intros v s (t & _ & -> & _). now eexists. }
  { cbv beta. intros v d Hd E (t & K). destruct d; [discriminate|]. split; [lia|]. split; [apply softs_nil|]. split; [|reflexivity]. replace off with (off + 0) by lia. rewrite <- nth_skip. destruct (skipn off inp); [discriminate|]. cbn in K. injection K as -> _. reflexivity. }
Qed.
End Quick.

(** ** What cannot follow where an expression cannot go on *)
Definition follows (t : list N) : Prop :=
  match t with [] => False | c :: t' => ident_char c = false /\ c <> chr "(" /\ c <> chr "[" /\ c <> chr "{" /\ (c = chr "=" -> exists t'', t' = chr "=" :: t'') end.
Lemma dead_tok : forall inp off d t, ltok t (firstn d (skipn off inp)) -> follows t -> ~ dead inp off.
Proof.
  intros inp off d t (w & u & E & Hw & w' & -> & _) Ft (c & Hc & D). destruct t as [|x t]; [contradiction|]. destruct Ft as (F1 & F2 & F3 & F5 & F4).
  assert (Sk : skipn off inp = (w ++ (x :: t) ++ w') ++ skipn d (skipn off inp)) by (rewrite <- E; symmetry; apply firstn_skipn).
  assert (N0 : nth_error (skipn off inp) 0 = Some c) by (rewrite nth_skip, Nat.add_0_r; exact Hc).
  destruct w as [|y w].
  - rewrite Sk in N0. cbn in N0. injection N0 as ->. destruct D as [D|[D|[D|[D|[D1 D2]]]]]; try congruence. destruct (F4 D1) as (t'' & ->). apply D2. rewrite <- (Nat.add_1_r off), <- nth_skip, Sk. reflexivity.
  - rewrite Sk in N0. cbn in N0. injection N0 as ->. inversion Hw as [|? ? Hy _]; subst. cbn in Hy. assert (c = 32 \/ c = 9 \/ c = 13 \/ c = 10)%N as [->|[->|[->| ->]]] by lia; destruct D as [D|[D|[D|[D|[D _]]]]]; discriminate.
Qed.
Lemma st_hoare : forall A (g : mparser A) p (Q : A -> list N -> Prop), erases g p -> hoare p Q -> (forall v s, Q v s -> exists t, follows t /\ ltok t s) -> stops g.
Proof.
  intros A g p Q R H K inp off L D. rewrite R. assert (Ho : off <= length inp).
  { destruct D as (c & Hc & _). assert (off < length inp) by (apply nth_error_Some; congruence). lia. }
  specialize (H inp off Ho). destruct (p inp off) as [v d| | |]; cbn; try exact I. destruct H as [_ H]. apply K in H. destruct H as (t & H1 & H2). exact (@dead_tok inp off d t H2 H1 D).
Qed.
Lemma st_tag : forall t, follows t -> stops (mt_tag t).
Proof. intros t H. eapply st_hoare; [apply et_tag|apply h_ttag|]. cbv beta. intros v s K. now exists t. Qed.
Lemma st_sym : forall c, follows [c] -> stops (mt_sym c).
Proof. intros c H. eapply st_hoare; [apply et_sym|apply h_tsym|]. cbv beta. intros v s [_ K]. now exists [c]. Qed.
Lemma st_one : forall A B (k : parser N A -> parser N B) g, keeps k -> stops g -> stops (m_one k g).
Proof.
  intros A B k g K H inp off L D. specialize (H inp off L D). unfold m_one. destruct (g inp off) as [o m]. cbn [fst] in *. destruct (k _ inp off) as [v d| | |] eqn:E; cbn; try exact I. destruct (K _ _ _ _ _ E) as [x ->]. exact H.
Qed.
Lemma st_or : forall A (g h : mparser A), stops g -> stops h -> stops (m_or g h).
Proof.
  intros A g h H1 H2 inp off L D. specialize (H1 inp off L D). specialize (H2 inp off L D). unfold m_or. destruct (g inp off) as [[v d|er [|]| |] m]; cbn in *; try assumption. destruct (h inp off) as [o m2]. exact H2.
Qed.
Ltac fol := repeat split; try discriminate.
Lemma st_mul : stops mt_mul_op.
Proof. unfold mt_mul_op, m_map_panic, m_id, m_map. apply st_one; [unfold keeps; one_out|]. apply st_one; [unfold keeps; one_out|]. apply st_or; apply st_sym; fol. Qed.
Lemma st_mod : stops mt_mod_op.
Proof. unfold mt_mod_op, m_map_panic. apply st_one; [unfold keeps; one_out|]. apply st_sym; fol. Qed.
Lemma st_add : stops mt_add_op.
Proof. unfold mt_add_op, m_map_panic. apply st_one; [unfold keeps; one_out|]. apply st_or; apply st_sym; fol. Qed.
Lemma st_comp : stops mt_comp_op.
Proof. eapply st_hoare; [apply et_comp_op|apply h_comp_op|]. intros v s (o & _ & _ & K). exists (op_text o). split; [|exact K]. destruct o; repeat split; try discriminate. intros _. now eexists. Qed.
Lemma up_mul : upto a mt_mul_op.
Proof. eapply up_rest; [|apply re_mul_op]. lia. Qed.
Lemma up_mod : upto a mt_mod_op.
Proof. eapply up_rest; [|apply re_mod_op]. lia. Qed.
Lemma up_add : upto a mt_add_op.
Proof. eapply up_rest; [|apply re_add_op]. lia. Qed.
Lemma up_comp : upto a mt_comp_op.
Proof. eapply up_rest; [|apply re_comp_op]. lia. Qed.
Lemma up_tag : forall t, upto a (mt_tag t).
Proof. intros t. eapply up_rest; [|apply re_ttag]. lia. Qed.
(** A closing token: it fails at a dead place, and else ends further on. *)
Lemma qu_close : forall inp off c, length inp = n -> off <= n -> follows [c] ->
  wp (mt_tag [c]) inp off (fun p k => k <= a /\ off < p /\ p <= n /\ trimmed inp p /\ ~ dead inp off) (fun k => k <= a).
Proof.
  intros inp off c L Ho H. pose proof (@qu_tag1 inp off L Ho c) as Q. pose proof (@st_tag [c] H inp off L) as S0. unfold quick, wp in *. destruct (fst (mt_tag [c] inp off)) as [v d| | |]; try exact Q.
  destruct Q as (Q1 & Q2 & Q3 & s & Q4 & Q5 & Q6). pose proof (proj1 Q4). split; [exact Q1|]. split; [lia|]. split; [exact Q2|]. split; [exact Q3|]. intros D. now apply S0.
Qed.

(** ** Repetitions *)
Section Loops.
Variables A B : Type.
Variable g : mparser A.
Variable h : mparser B.
Variable e : nat.
Hypothesis He : 2 * a + 4 <= e.
Hypothesis Uh : upto a h.
Hypothesis Ih : inward h.
Hypothesis Sh : stops h.
(** What is known of the end [p] of a repetition, begun with the potential [b], after [c] calls. *)
Definition done (inp : list N) (b p c : nat) : Prop := p <= n /\ (c + pot inp p <= 2 * b + 2 * a \/ dead inp p /\ c <= 2 * b + 2 * a).
Lemma sep_loop : pays dead e g -> forall fuel rend inp off b items all m, length inp = n -> off + all <= n -> b <= pot inp off ->
  (cnt m + pot inp (off + all) <= b \/ dead inp (off + all) /\ cnt m <= b) ->
  match fst (m_loop fuel g (Some h) rend inp (off + all) items all m) with
  | RDone _ all' => all <= all' /\ done inp b (off + all') (cnt (snd (m_loop fuel g (Some h) rend inp (off + all) items all m)))
  | _ => cnt (snd (m_loop fuel g (Some h) rend inp (off + all) items all m)) <= 2 * b + 2 * a
  end.
Proof.
  intros Pg. induction fuel as [|fuel IH]; intros rend inp off b items all m L Ho Hb H; [cbn [m_loop fst snd]; destruct H as [H|[_ H]]; lia|]. cbn [m_loop].
  destruct (rep_stop rend (length items)).
  { cbn [fst snd]. split; [lia|]. split; [exact Ho|]. destruct H as [H|[D H]]; [left; lia|right; split; [exact D|lia]]. }
  pose proof (Uh inp L Ho) as U. pose proof (fun v d => @Ih inp (off + all) v d L Ho) as I0. pose proof (Sh (off := off + all) L) as S0.
  destruct (h inp (off + all)) as [[v k|er c| |] m1]; cbn [fst snd failed] in *.
  2: { split; [lia|]. split; [exact Ho|]. cbn [both cnt]. destruct H as [H|[D H]]; [left; lia|right; split; [exact D|lia]]. }
  2,3: cbn [both cnt]; destruct H as [H|[_ H]]; lia.
  destruct H as [H|[D _]]; [|now elim S0]. destruct (I0 v k eq_refl) as [I1 I2]. pose proof (@pot_step inp (off + all) (off + all + k) ltac:(lia) I1) as P1. unfold unit_cost in P1.
  destruct (Pg inp (off + all + k) L I1) as (pay & Hpay & G). unfold ok in G.
  destruct (g inp (off + all + k)) as [[y k2|er c| |] m2]; cbn [fst snd] in *.
  - destruct G as (G1 & G2 & G3). rewrite <- !Nat.add_assoc in *. specialize (IH rend inp off b (y :: items) (all + (k + k2)) (both (both m m1) m2) L ltac:(lia) Hb). cbn [both cnt] in IH.
    destruct (m_loop fuel g (Some h) rend inp (off + (all + (k + k2))) (y :: items) (all + (k + k2)) (both (both m m1) m2)) as [[its all'| |] m3]; cbn [fst snd] in *.
    + assert (X : all + (k + k2) <= all' /\ done inp b (off + all') (cnt m3)); [|destruct X; split; [lia|assumption]]. apply IH. destruct G3 as [G3|[D G3]]; [left; lia|right; split; [exact D|lia]].
    + apply IH. destruct G3 as [G3|[D G3]]; [left; lia|right; split; [exact D|lia]].
    + apply IH. destruct G3 as [G3|[D G3]]; [left; lia|right; split; [exact D|lia]].
  - split; [lia|]. rewrite Nat.add_assoc. split; [exact I1|]. cbn [both cnt]. left. lia.
  - cbn [both cnt]. lia.
  - cbn [both cnt]. lia.
Qed.
Lemma one_loop : pays never e g -> forall fuel rend inp off b items all m, length inp = n -> off + all <= n -> b <= pot inp off -> cnt m + pot inp (off + all) <= b ->
  match fst (m_loop fuel g (None : option (mparser B)) rend inp (off + all) items all m) with
  | RDone _ all' => all <= all' /\ off + all' <= n /\ cnt (snd (m_loop fuel g (None : option (mparser B)) rend inp (off + all) items all m)) + pot inp (off + all') <= 2 * b + 2 * a
  | _ => cnt (snd (m_loop fuel g (None : option (mparser B)) rend inp (off + all) items all m)) <= 2 * b + 2 * a
  end.
Proof.
  intros Pg. induction fuel as [|fuel IH]; intros rend inp off b items all m L Ho Hb H; [cbn [m_loop fst snd]; lia|]. cbn [m_loop].
  destruct (rep_stop rend (length items)); [cbn [fst snd]; lia|].
  destruct (Pg inp (off + all) L Ho) as (pay & Hpay & G). unfold ok in G.
  destruct (g inp (off + all)) as [[y k2|er c| |] m2]; cbn [fst snd] in *.
  - destruct G as (G1 & G2 & G3). rewrite <- !Nat.add_assoc in *. specialize (IH rend inp off b (y :: items) (all + k2) (both m m2) L ltac:(lia) Hb). cbn [both cnt] in IH.
    destruct G3 as [G3|[[] _]].
    destruct (m_loop fuel g None rend inp (off + (all + k2)) (y :: items) (all + k2) (both m m2)) as [[its all'| |] m3]; cbn [fst snd] in *; specialize (IH ltac:(lia)); lia.
  - cbn [both cnt]. lia.
  - cbn [both cnt]. lia.
  - cbn [both cnt]. lia.
Qed.
Lemma finish : forall rstart (inp : list N) off (its : list A) all, exists o, rep_finish rstart inp off (RDone its all) = o /\ match o with Success _ d => d = all | _ => True end.
Proof. intros rstart inp off its all. eexists. split; [reflexivity|]. unfold rep_finish. destruct rstart; repeat (match goal with |- context [if ?b then _ else _] => destruct b | |- context [match ?x with Some _ => _ | None => _ end] => destruct x end); cbn; auto. Qed.
Lemma wp_sep : forall r inp off, pays dead e g -> length inp = n -> off <= n -> wp (m_rep g r (Some h)) inp off (fun p c => off <= p /\ done inp (S (pot inp off)) p c) (fun c => c <= 2 * S (pot inp off) + 2 * a).
Proof.
  intros r inp off Pg L Ho. unfold wp, m_rep. destruct (Pg inp off L Ho) as (pay & Hpay & G). unfold ok in G. destruct (g inp off) as [[v d|er c| |] m]; cbn [fst snd] in G.
  - destruct G as (G1 & G2 & G3). pose proof (@sep_loop Pg (rep_fuel (rg_end r) inp off) (rg_end r) inp off (pot inp off) [v] d m L G1 (le_n _)) as K.
    destruct (m_loop _ g (Some h) _ inp (off + d) [v] d m) as [[its all| |] m3]; cbn [fst snd up cnt] in *.
    + destruct (finish (rg_start r) inp off its all) as (o & -> & Hf). destruct K as (K1 & K2 & K3); [destruct G3 as [G3|[D G3]]; [left; lia|right; split; [exact D|lia]]|].
      destruct o; [rewrite Hf; split; [lia|]; split; [exact K2|]; destruct K3 as [K3|[D K3]]; [left; lia|right; split; [exact D|lia]]|destruct K3 as [K3|[D K3]]; lia..].
    + cbn [rep_finish]. assert (X : cnt m3 <= 2 * pot inp off + 2 * a) by (apply K; destruct G3 as [G3|[D G3]]; [left; lia|right; split; [exact D|lia]]). lia.
    + cbn [rep_finish]. assert (X : cnt m3 <= 2 * pot inp off + 2 * a) by (apply K; destruct G3 as [G3|[D G3]]; [left; lia|right; split; [exact D|lia]]). lia.
  - cbn [fst snd up cnt]. destruct (finish (rg_start r) inp off [] 0) as (o & -> & Hf). destruct o; [rewrite Hf; rewrite Nat.add_0_r; split; [lia|]; split; [exact Ho|left; lia]|lia..].
  - cbn [fst snd up cnt rep_finish]. lia.
  - cbn [fst snd up cnt rep_finish]. lia.
Qed.
Lemma wp_many : forall r inp off, pays never e g -> length inp = n -> off <= n ->
  wp (m_rep g r (None : option (mparser B))) inp off (fun p c => off <= p /\ p <= n /\ c + pot inp p <= 2 * S (pot inp off) + 2 * a) (fun c => c <= 2 * S (pot inp off) + 2 * a).
Proof.
  intros r inp off Pg L Ho. unfold wp, m_rep. destruct (Pg inp off L Ho) as (pay & Hpay & G). unfold ok in G. destruct (g inp off) as [[v d|er c| |] m]; cbn [fst snd] in G.
  - destruct G as (G1 & G2 & [G3|[[] _]]). pose proof (@one_loop Pg (rep_fuel (rg_end r) inp off) (rg_end r) inp off (pot inp off) [v] d m L G1 (le_n _) ltac:(lia)) as K.
    destruct (m_loop _ g None _ inp (off + d) [v] d m) as [[its all| |] m3]; cbn [fst snd up cnt] in *; [|cbn [rep_finish]; lia..].
    destruct (finish (rg_start r) inp off its all) as (o & -> & Hf). destruct o; [rewrite Hf|..]; lia.
  - cbn [fst snd up cnt]. destruct (finish (rg_start r) inp off [] 0) as (o & -> & Hf). destruct o; [rewrite Hf; rewrite Nat.add_0_r|..]; lia.
  - cbn [fst snd up cnt rep_finish]. lia.
  - cbn [fst snd up cnt rep_finish]. lia.
Qed.
End Loops.

(** ** Brackets *)
Lemma gate_dec : forall inp off, (exists s x, gate inp off s x) \/ (forall s x, ~ gate inp off s x).
Proof.
  intros inp off. remember (length inp - off) as k eqn:K. revert off K. induction k as [|k IH]; intros off K.
  - right. intros s x ([H1 _] & H2 & _). assert (s < length inp) by (apply nth_error_Some; congruence). lia.
  - destruct (nth_error inp off) as [c|] eqn:Ec; [|apply nth_error_None in Ec; lia]. destruct (soft c) eqn:Sc.
    + assert (X : softs inp off (S off)) by (split; [lia|]; intros i Hi; exists c; replace i with off by lia; now split). destruct (IH (S off) ltac:(lia)) as [(s & x & H)|H].
      * left. exists s, x. now apply gate_from with (S off).
      * right. intros s x Hg. apply (H s x). now apply (gate_upto Hg).
    + left. exists off, c. split; [apply softs_nil|]. now split.
Qed.
(** A run that reads on after a bracket of [cs], the first character that is neither white space nor part of a word. *)
Definition opens {A} (cs : list N) (m b : nat) (g : mparser A) (inp : list N) (off : nat) : Prop := wp g inp off
  (fun p c => off < p /\ p <= n /\ exists s x, In x cs /\ gate inp off s x /\ c + pot inp p <= b + m * pot inp (S s))
  (fun c => c <= b \/ exists s x, In x cs /\ gate inp off s x /\ c <= b + m * pot inp (S s)).
Definition low {A} (k : nat) (g : mparser A) (inp : list N) (off : nat) : Prop := wp g inp off (fun p c => off < p /\ p <= n /\ c <= k) (fun c => c <= k).
Lemma opens_ok : forall A dd cs m b (g : mparser A) inp off s x, opens cs m b g inp off -> gate inp off s x -> ok dd (b + m * pot inp (S s)) g inp off.
Proof.
  intros A dd cs m b g inp off s x H G. apply ok_wp. eapply wp_mono; [exact H| |]; cbv beta.
  - intros p c (L1 & L2 & s' & x' & _ & G' & L3). destruct (gate_once G G') as [<- <-]. repeat split; [exact L1|exact L2|]. now left.
  - intros c [L|(s' & x' & _ & G' & L)]; [lia|]. destruct (gate_once G G') as [<- <-]. exact L.
Qed.
Lemma opens_no : forall A dd cs m b (g : mparser A) inp off, opens cs m b g inp off -> (forall s x, In x cs -> ~ gate inp off s x) -> ok dd b g inp off.
Proof.
  intros A dd cs m b g inp off H G. apply ok_wp. eapply wp_mono; [exact H| |]; cbv beta.
  - intros p c (L1 & L2 & s' & x' & I' & G' & L3). now elim (G s' x').
  - intros c [L|(s' & x' & I' & G' & L)]; [lia|]. now elim (G s' x').
Qed.
Lemma low_no : forall A cs m b (g : mparser A) inp off, opens cs m b g inp off -> (forall s x, In x cs -> ~ gate inp off s x) -> low b g inp off.
Proof.
  intros A cs m b g inp off H G. eapply wp_mono; [exact H| |]; cbv beta.
  - intros p c (L1 & L2 & s' & x' & I' & G' & L3). now elim (G s' x').
  - intros c [L|(s' & x' & I' & G' & L)]; [lia|]. now elim (G s' x').
Qed.
Lemma low_or : forall A k1 k2 (g h : mparser A) inp off, low k1 g inp off -> low k2 h inp off -> low (k1 + k2 + 1) (m_or g h) inp off.
Proof.
  intros A k1 k2 g h inp off H1 H2. apply wp_or. eapply wp_mono; [exact H1|cbv beta; intros; lia|]. cbv beta. intros c Hc. split; [lia|]. eapply wp_mono; [exact H2|cbv beta; intros; lia|cbv beta; intros; lia].
Qed.
Lemma low_one : forall A B (k : parser N A -> parser N B) i (g : mparser A) inp off, plain k -> low i g inp off -> low (S i) (m_one k g) inp off.
Proof. intros A B k i g inp off K H. apply wp_one; [exact K|]. eapply wp_mono; [exact H|cbv beta; intros; lia|cbv beta; intros; lia]. Qed.
Lemma low_ok : forall A dd k (g : mparser A) inp off, off <= n -> low k g inp off -> ok dd (pot inp off - unit_cost + k) g inp off.
Proof.
  intros A dd k g inp off Ho H. apply ok_wp. pose proof (pot_pos inp off) as P. eapply wp_mono; [exact H| |cbv beta; intros; lia]. cbv beta. intros p c (L1 & L2 & L3). repeat split; [exact L1|exact L2|]. left.
  pose proof (@pot_step inp off p L1 L2). lia.
Qed.
Lemma soft_dead : forall inp off s x p, gate inp off s x -> x = chr "(" \/ x = chr "[" \/ x = chr "{" \/ x = chr "=" /\ nth_error inp (S s) <> Some (chr "=") -> softs inp off p -> trimmed inp p -> dead inp p.
Proof.
  intros inp off s x p G X Sp T. destruct (gate_upto G Sp) as [Hp (_ & G2 & G3)]. destruct G as ([_ G1] & _ & _). destruct (Nat.eq_dec p s) as [->|Hne]; [exists x; split; [exact G2|]; tauto|].
  destruct (G1 p) as (c & Hc & Sc); [pose proof (proj1 Sp); lia|]. exists c. split; [exact Hc|]. left. unfold trimmed in T. rewrite Hc in T. now apply soft_not_ws.
Qed.

Ltac w1 := apply wp_one; [first [apply pl_map|apply pl_attempt|apply pl_lazy|apply pl_name]|].
Ltac w2 := apply wp_two; [first [apply pl_and|apply pl_skip_left|apply pl_skip_right]|].
Ltac nxt l := eapply wp_mono; [apply l; try assumption; try lia| |]; cbv beta.
Lemma qu_elm : forall c inp off, length inp = n -> off <= n -> quick (m_elm_ref c) inp off (fun p => off < p).
Proof.
  intros c inp off L Ho. assert (U : upto a (m_elm_ref c)) by (eapply up_rest with (i := 0) (j := 1); [lia|apply re_small, sm_leaf]). pose proof (@iw_within _ _ (wi_elm_pred_ref (fun x => (x =? c)%N)) inp off) as W.
  unfold quick, wp. specialize (U inp off L Ho). unfold m_elm_ref in *. destruct (fst (m_elm_pred_ref _ inp off)) as [v d| | |]; try exact U. destruct (W v d L Ho eq_refl). lia.
Qed.

(** The end of a proof of [opens], when the bracket is at [s]. *)
Ltac at_gate s c G := first [split; [lia|]; split; [lia|]|right]; exists s, c; (split; [now left|]); (split; [exact G|]); lia.
Section Primary.
Variable X : mparser expr.
Variable e : nat.
Hypothesis He : 4 * a <= e.
Hypothesis PX : pays dead e X.
Lemma plazy : pays dead (3 * a) (m_lazy X).
Proof. apply pays_one; [unfold keeps; one_out|]. intros inp off L Ho. destruct (PX inp L Ho) as (pay & H1 & H2). exists pay. split; [lia|exact H2]. Qed.
Lemma op_paren : forall inp off, length inp = n -> off <= n -> opens [chr "("] 1 (16 * a) (mt_paren_expr X) inp off.
Proof.
  intros inp off L Ho. unfold opens, mt_paren_expr, m_map, m_skip_right, m_skip_left, mt_lparen, mt_rparen. w1. w2. w2.
  nxt @qu_tag1; [|intros c Hc; left; lia]. intros p1 c1 (C1 & L1 & T1 & s & S1 & S2 & S3 & S4).
  destruct (plazy inp L L1) as (pay & Hp & G). pose proof (pot_le inp (i := S s) (j := p1) S2) as P1. pose proof (proj1 S1) as Hs.
  assert (Gs : gate inp off s (chr "(")) by (split; [exact S1|now split]).
  eapply wp_mono; [apply wp_ok; exact G| |]; cbv beta.
  - intros p2 c2 (M1 & M2 & M3). eapply wp_mono; [apply qu_close; [exact L|exact M2|repeat split; discriminate]| |]; cbv beta.
    + intros p3 c3 (C3 & N1 & N2 & _ & N3). destruct M3 as [M3|[D _]]; [|contradiction]. pose proof (pot_le inp (i := p2) (j := p3) ltac:(lia)). split; [lia|]. split; [exact N2|]. exists s, (chr "("). split; [now left|]. split; [exact Gs|]. lia.
    + intros c3 C3. right. exists s, (chr "("). split; [now left|]. split; [exact Gs|]. destruct M3 as [M3|[_ M3]]; lia.
  - intros c2 C2. right. exists s, (chr "("). split; [now left|]. split; [exact Gs|]. lia.
Qed.
Definition comma_ok : inward mt_comma := @iw_within _ _ (@wi_ttag (chr ",") []).
Lemma st_comma : stops mt_comma.
Proof. apply st_tag. fol. Qed.
(** A list of expressions and its closing bracket. *)
Lemma wp_args : forall A (g : mparser A) e' r c inp off, 2 * a + 4 <= e' -> pays dead e' g -> length inp = n -> off <= n -> follows [c] ->
  wp (m_skip_right (m_rep g r (Some mt_comma)) (mt_tag [c])) inp off (fun p k => off < p /\ p <= n /\ trimmed inp p /\ k + pot inp p <= 2 * pot inp off + 4 * a) (fun k => k <= 2 * pot inp off + 4 * a).
Proof.
  intros A g e' r c inp off H1 H2 L Ho Hc. unfold m_skip_right. w2. eapply wp_mono; [apply (@wp_sep _ _ g mt_comma e' H1 (@up_tag _) comma_ok st_comma r inp off H2 L Ho)| |]; cbv beta; [|intros; lia].
  intros p1 c1 (L1 & L2 & D). eapply wp_mono; [apply qu_close; [exact L|exact L2|exact Hc]| |]; cbv beta.
  - intros p3 c3 (C3 & N1 & N2 & T3 & N3). destruct D as [M3|[D _]]; [|contradiction]. pose proof (pot_le inp (i := p1) (j := p3) ltac:(lia)). repeat split; [lia|lia|exact T3|lia].
  - intros c3 C3. destruct D as [M3|[_ M3]]; lia.
Qed.
Lemma op_array : forall inp off, length inp = n -> off <= n -> opens [chr "["] 2 (16 * a) (mt_array_literal X) inp off.
Proof.
  intros inp off L Ho. unfold opens, mt_array_literal, m_cache, m_id, m_name, mt_spaced, m_map, m_surround, m_skip_left, m_many0_sep, mt_lbracket, mt_rbracket. w1. w1. unfold m_skip_right at 1. w2. w2.
  nxt @qu_space; [|intros c Hc; left; lia]. intros p0 c0 (C0 & L0 & S0 & _). w1. w2.
  nxt @qu_tag1; [|intros c Hc; left; lia]. intros p1 c1 (C1 & L1 & T1 & s & S1 & S2 & S3 & S4). pose proof (proj1 S0) as Hs0. pose proof (proj1 S1) as Hs1.
  pose proof (pot_le inp (i := S s) (j := p1) S2) as P1.
  assert (Gs : gate inp off s (chr "[")) by (split; [now apply softs_app with p0|now split]).
  eapply wp_mono; [apply (@wp_args _ _ (3 * a)); [lia|apply plazy|exact L|exact L1|fol]| |]; cbv beta; [|intros c2 C2; at_gate s (chr "[") Gs].
  intros p2 c2 (M1 & M2 & _ & M3). nxt @qu_space; [|intros c3 C3; at_gate s (chr "[") Gs]. intros p3 c3 (C3 & L3 & S5 & _). pose proof (proj1 S5) as Hs5. pose proof (pot_le inp (i := p2) (j := p3) Hs5).
  at_gate s (chr "[") Gs.
Qed.
Lemma op_call : forall inp off, length inp = n -> off <= n -> opens [chr "("] 2 (16 * a) (mt_function_call X) inp off.
Proof.
  intros inp off L Ho. unfold opens, mt_function_call, m_cache, m_id, m_name, m_attempt, mt_spaced, m_map, m_and, m_surround, m_skip_left, m_many0_sep, mt_lparen, mt_rparen. w1. w1. w1. unfold m_skip_right at 1. w2. w2.
  nxt @qu_space; [|intros c Hc; left; lia]. intros p0 c0 (C0 & L0 & S0 & _). w1. w2.
  nxt @qu_ident; [|intros c Hc; left; lia]. intros q d (D0 & Lq & Sq & Hq & _). w2.
  nxt @qu_tag1; [|intros c Hc; left; lia]. intros p1 c1 (C1 & L1 & T1 & s & S1 & S2 & S3 & S4). pose proof (proj1 S0) as Hs0. pose proof (proj1 S1) as Hs1.
  pose proof (pot_le inp (i := S s) (j := p1) S2) as P1.
  assert (Gs : gate inp off s (chr "(")) by (split; [apply softs_app with p0; [exact S0|now apply softs_app with q]|now split]).
  eapply wp_mono; [apply (@wp_args _ _ (3 * a)); [lia|apply plazy|exact L|exact L1|fol]| |]; cbv beta; [|intros c2 C2; at_gate s (chr "(") Gs].
  intros p2 c2 (M1 & M2 & _ & M3). nxt @qu_space; [|intros c3 C3; at_gate s (chr "(") Gs]. intros p3 c3 (C3 & L3 & S5 & _). pose proof (proj1 S5) as Hs5. pose proof (pot_le inp (i := p2) (j := p3) Hs5).
  at_gate s (chr "(") Gs.
Qed.
Lemma pays_param : pays dead (3 * a) (mt_param X).
Proof.
  intros inp off L Ho. pose proof (pot_pos inp off) as Pp. unfold unit_cost in *. exists (pot inp off - 3 * a). split; [lia|]. apply ok_wp. unfold mt_param, m_map, m_and, m_skip_right. w1. w2. w2.
  nxt @qu_ident; [|intros c Hc; lia]. intros q d (D0 & Lq & Sq & Hq & _). nxt qu_elm; [|intros c Hc; lia]. intros p1 c1 (C1 & L1 & H1).
  pose proof (@pot_step inp off p1 ltac:(lia) L1) as P1. unfold unit_cost in P1. destruct (plazy inp L L1) as (pay & Hp & G). eapply wp_mono; [apply wp_ok; exact G| |]; cbv beta; [|intros c2 C2; lia].
  intros p2 c2 (M1 & M2 & M3). split; [lia|]. split; [exact M2|]. destruct M3 as [M3|[D M3]]; [left; lia|right; split; [exact D|lia]].
Qed.
Lemma op_labelled : forall inp off, length inp = n -> off <= n -> opens [chr "["] 2 (16 * a) (mt_labelled_call X) inp off.
Proof.
  intros inp off L Ho. unfold opens, mt_labelled_call, m_cache, m_id, m_name, m_attempt, mt_spaced, m_map, m_and, m_surround, m_skip_left, m_many1_sep, mt_lbracket, mt_rbracket. w1. w1. w1. unfold m_skip_right at 1. w2. w2.
  nxt @qu_space; [|intros c Hc; left; lia]. intros p0 c0 (C0 & L0 & S0 & _). w1. w2.
  nxt @qu_ident; [|intros c Hc; left; lia]. intros q d (D0 & Lq & Sq & Hq & _). w2.
  nxt @qu_tag1; [|intros c Hc; left; lia]. intros p1 c1 (C1 & L1 & T1 & s & S1 & S2 & S3 & S4). pose proof (proj1 S0) as Hs0. pose proof (proj1 S1) as Hs1.
  pose proof (pot_le inp (i := S s) (j := p1) S2) as P1.
  assert (Gs : gate inp off s (chr "[")) by (split; [apply softs_app with p0; [exact S0|now apply softs_app with q]|now split]).
  eapply wp_mono; [apply (@wp_args _ _ (3 * a)); [lia|apply pays_param|exact L|exact L1|fol]| |]; cbv beta; [|intros c2 C2; at_gate s (chr "[") Gs].
  intros p2 c2 (M1 & M2 & _ & M3). nxt @qu_space; [|intros c3 C3; at_gate s (chr "[") Gs]. intros p3 c3 (C3 & L3 & S5 & _). pose proof (proj1 S5) as Hs5. pose proof (pot_le inp (i := p2) (j := p3) Hs5).
  at_gate s (chr "[") Gs.
Qed.

(** ** A primary: at a bracket, at a single equals sign, and elsewhere *)
Lemma quick_ok : forall A (g : mparser A) inp off (E : nat -> Prop), quick g inp off E -> (forall p, E p -> off < p /\ dead inp p) -> ok dead a g inp off.
Proof.
  intros A g inp off E H K. apply ok_wp. eapply wp_mono; [exact H| |cbv beta; auto]. cbv beta. intros p c (C & L & Ep). destruct (K p Ep) as [K1 K2]. repeat split; [exact K1|exact L|]. right. now split.
Qed.
Lemma quick_low : forall A (g : mparser A) inp off (E : nat -> Prop), quick g inp off E -> (forall p, E p -> off < p) -> low a g inp off.
Proof. intros A g inp off E H K. eapply wp_mono; [exact H| |cbv beta; auto]. cbv beta. intros p c (C & L & Ep). repeat split; auto. Qed.
Section Atoms.
Variables (inp : list N) (off : nat).
Hypothesis L : length inp = n.
Hypothesis Ho : off <= n.
Definition shut (s : nat) (x : N) : Prop := x = chr "(" \/ x = chr "[" \/ x = chr "{" \/ x = chr "=" /\ nth_error inp (S s) <> Some (chr "=").
Lemma shut_atoms : forall s x, gate inp off s x -> shut s x ->
  ok dead a (mt_integer nd) inp off /\ ok dead a mt_string_literal inp off /\ ok dead a mt_bool_literal inp off /\ ok dead a mt_identifier inp off.
Proof.
  intros s x G Sx. repeat split.
  - eapply quick_ok; [now apply qu_integer|]. cbv beta. intros p (H1 & H2 & [H3|(s' & G')]); [split; [exact H1|now apply (soft_dead G)]|]. destruct (gate_once G G') as [<- ->]. destruct Sx as [Sx|[Sx|[Sx|[Sx _]]]]; discriminate.
  - eapply quick_ok; [now apply qu_string|]. cbv beta. intros p (H1 & G'). destruct (gate_once G G') as [-> ->]. destruct Sx as [Sx|[Sx|[Sx|[Sx _]]]]; discriminate.
  - eapply quick_ok; [now apply qu_bool|]. cbv beta. intros p (H1 & H2 & H3). split; [exact H2|now apply (soft_dead G)].
  - eapply quick_ok; [now apply qu_identifier|]. cbv beta. intros p (H1 & H2 & H3). split; [exact H2|now apply (soft_dead G)].
Qed.
Lemma low_atoms : low a (mt_integer nd) inp off /\ low a mt_string_literal inp off /\ low a mt_bool_literal inp off /\ low a mt_identifier inp off.
Proof.
  repeat split.
  - eapply quick_low; [now apply qu_integer|]. cbv beta. tauto.
  - eapply quick_low; [now apply qu_string|]. cbv beta. tauto.
  - eapply quick_low; [now apply qu_bool|]. cbv beta. tauto.
  - eapply quick_low; [now apply qu_identifier|]. cbv beta. tauto.
Qed.
Ltac kmap := unfold keeps; one_out.
Lemma pr_open : forall s x, gate inp off s x -> x = chr "(" \/ x = chr "[" -> ok dead (80 * a + 7 * pot inp (S s)) (mt_primary_of nd X) inp off.
Proof.
  intros s x G Sx. destruct (shut_atoms G) as (A1 & A2 & A3 & A4); [unfold shut; tauto|].
  pose proof (@opens_ok _ dead _ _ _ _ _ _ _ _ (@op_paren inp off L Ho) G) as B1. pose proof (@opens_ok _ dead _ _ _ _ _ _ _ _ (@op_call inp off L Ho) G) as B2. pose proof (@opens_ok _ dead _ _ _ _ _ _ _ _ (@op_labelled inp off L Ho) G) as B3. pose proof (@opens_ok _ dead _ _ _ _ _ _ _ _ (@op_array inp off L Ho) G) as B4.
  eapply ok_le; [unfold mt_primary_of, m_cache, m_id, m_map, m_name; apply ok_one; [kmap|]; apply ok_one; [kmap|]; apply ok_one; [kmap|];
    repeat (eapply ok_or; [|eassumption]); exact B1|lia].
Qed.
Lemma pr_single : forall s x, gate inp off s x -> x = chr "{" \/ x = chr "=" /\ nth_error inp (S s) <> Some (chr "=") -> ok dead (80 * a) (mt_primary_of nd X) inp off.
Proof.
  intros s x G Sx. destruct (shut_atoms G) as (A1 & A2 & A3 & A4); [unfold shut; tauto|].
  assert (Z : forall c, c <> chr "=" /\ c <> chr "{" -> forall s x, In x [c] -> ~ gate inp off s x) by (intros c [Hc Hd] s' x' [<-|[]] G'; destruct (gate_once G G'); destruct Sx as [Sx|[Sx _]]; congruence).
  pose proof (@opens_no _ dead _ _ _ _ _ _ (@op_paren inp off L Ho) (Z (chr "(") ltac:(split; discriminate))) as B1. pose proof (@opens_no _ dead _ _ _ _ _ _ (@op_call inp off L Ho) (Z (chr "(") ltac:(split; discriminate))) as B2. pose proof (@opens_no _ dead _ _ _ _ _ _ (@op_labelled inp off L Ho) (Z (chr "[") ltac:(split; discriminate))) as B3. pose proof (@opens_no _ dead _ _ _ _ _ _ (@op_array inp off L Ho) (Z (chr "[") ltac:(split; discriminate))) as B4.
  eapply ok_le; [unfold mt_primary_of, m_cache, m_id, m_map, m_name; apply ok_one; [kmap|]; apply ok_one; [kmap|]; apply ok_one; [kmap|];
    repeat (eapply ok_or; [|eassumption]); exact B1|lia].
Qed.
Lemma low_le : forall A k k' (g : mparser A), low k g inp off -> k <= k' -> low k' g inp off.
Proof. intros A k k' g H Hk. eapply wp_mono; [exact H|cbv beta; intros; lia|cbv beta; intros; lia]. Qed.
Lemma pr_low : (forall s x, x = chr "(" \/ x = chr "[" -> ~ gate inp off s x) -> low (80 * a) (mt_primary_of nd X) inp off.
Proof.
  intros Z. destruct low_atoms as (A1 & A2 & A3 & A4).
  assert (Z1 : forall s x, In x [chr "("] -> ~ gate inp off s x) by (intros s' x' [<-|[]]; apply Z; auto). assert (Z2 : forall s x, In x [chr "["] -> ~ gate inp off s x) by (intros s' x' [<-|[]]; apply Z; auto).
  pose proof (@low_no _ _ _ _ _ _ _ (@op_paren inp off L Ho) Z1) as B1. pose proof (@low_no _ _ _ _ _ _ _ (@op_call inp off L Ho) Z1) as B2. pose proof (@low_no _ _ _ _ _ _ _ (@op_labelled inp off L Ho) Z2) as B3. pose proof (@low_no _ _ _ _ _ _ _ (@op_array inp off L Ho) Z2) as B4.
  eapply low_le; [unfold mt_primary_of, m_cache, m_id, m_map, m_name; apply low_one; [apply pl_map|]; apply low_one; [apply pl_name|]; apply low_one; [apply pl_map|];
    repeat (eapply low_or; [|eassumption]); exact B1|lia].
Qed.
End Atoms.
Lemma pays_primary : pays dead (400 * a) (mt_primary_of nd X).
Proof.
  intros inp off L Ho. destruct (gate_dec inp off) as [(s & x & G)|Z].
  - assert (D : (x = chr "(" \/ x = chr "[") \/ ~ (x = chr "(" \/ x = chr "[")).
    { destruct (N.eq_dec x (chr "(")); [tauto|]. destruct (N.eq_dec x (chr "[")); tauto. }
    destruct D as [D|D].
    + eexists. split; [|apply (pr_open L Ho G D)]. pose proof (proj1 (proj1 G)) as H1. assert (H2 : s < n) by (rewrite <- L; apply nth_error_Some; rewrite (proj1 (proj2 G)); discriminate).
      assert (M : is_mark x = true) by (destruct D as [-> | ->]; reflexivity). pose proof (@pot_at inp off s x H1 H2 (proj1 (proj2 G)) M) as P. unfold unit_cost in P. lia.
    + eexists. split; [|apply low_ok; [exact Ho|apply pr_low; [exact L|exact Ho|]]].
      * pose proof (pot_pos inp off). unfold unit_cost in *. lia.
      * intros s' x' E G'. destruct (gate_once G G') as [_ <-]. contradiction.
  - eexists. split; [|apply low_ok; [exact Ho|apply pr_low; [exact L|exact Ho|]]].
    + pose proof (pot_pos inp off). unfold unit_cost in *. lia.
    + intros s' x' _. apply Z.
Qed.
Ltac kmap := unfold keeps; one_out.
(** The levels of the operators, over a primary at one place. *)
Lemma level : forall (op : mparser (expr -> expr -> expr)) nm e0 (g : mparser expr), upto a op -> inward op -> stops op -> 2 * a <= e0 -> pays dead e0 g ->
  pays dead (e0 - 2 * a) (m_cache (m_name (m_chain_left1 g op) nm)) /\
  forall p inp off, length inp = n -> off <= n -> ok dead p g inp off -> ok dead (p + 2 * a) (m_cache (m_name (m_chain_left1 g op) nm)) inp off.
Proof.
  intros op nm e0 g H1 H2 H3 H4 H5.
  assert (K : forall p inp off, length inp = n -> off <= n -> ok dead p g inp off -> ok dead (p + 2 * a) (m_cache (m_name (m_chain_left1 g op) nm)) inp off).
  { intros p inp off L Ho H. unfold m_cache, m_id, m_map, m_name. eapply ok_le; [apply ok_one; [kmap|]; apply ok_one; [kmap|]; eapply ok_chain with (e := e0); try eassumption; lia|lia]. }
  split; [|exact K]. intros inp off L Ho. destruct (H5 inp off L Ho) as (p & Hp & H). exists (p + 2 * a). split; [lia|]. now apply K.
Qed.
Lemma levels : pays dead (300 * a) (mt_expression_of (mt_primary_of nd X)) /\
  forall p inp off, length inp = n -> off <= n -> ok dead p (mt_primary_of nd X) inp off -> ok dead (p + 10 * a) (mt_expression_of (mt_primary_of nd X)) inp off.
Proof.
  destruct (@level mt_mul_op "multitive" (400 * a) _ up_mul (iw_within wi_mul_op) st_mul ltac:(lia) pays_primary) as [A1 B1]. fold (mt_multitive (mt_primary_of nd X)) in *.
  destruct (@level mt_mod_op "moditive" (400 * a - 2 * a) _ up_mod (iw_within wi_mod_op) st_mod ltac:(lia) A1) as [A2 B2]. fold (mt_moditive (mt_primary_of nd X)) in *.
  destruct (@level mt_add_op "additive" (400 * a - 2 * a - 2 * a) _ up_add (iw_within wi_add_op) st_add ltac:(lia) A2) as [A3 B3]. fold (mt_additive (mt_primary_of nd X)) in *.
  destruct (@level mt_comp_op "comparative" (400 * a - 2 * a - 2 * a - 2 * a) _ up_comp (iw_within wi_comp_op) st_comp ltac:(lia) A3) as [A4 B4]. fold (mt_comparative (mt_primary_of nd X)) in *.
  unfold mt_expression_of, m_cache, m_id, m_map, m_name. split.
  - apply pays_one; [kmap|]. apply pays_one; [kmap|]. intros inp off L Ho. destruct (A4 inp off L Ho) as (p & Hp & H). exists p. split; [lia|exact H].
  - intros p inp off L Ho H. eapply ok_le; [apply ok_one; [kmap|]; apply ok_one; [kmap|]; apply B4; [exact L|exact Ho|]; apply B3; [exact L|exact Ho|]; apply B2; [exact L|exact Ho|]; apply B1; [exact L|exact Ho|]; exact H|lia].
Qed.
End Primary.

(** ** Expressions *)
Lemma pays_fuel : forall fuel, pays dead (300 * a) (mt_expression_fuel nd fuel).
Proof.
  induction fuel as [|fuel IH]; [|cbn [mt_expression_fuel]; apply (@levels _ (300 * a)); [lia|exact IH]].
  intros inp off L Ho. exists (pot inp off - 300 * a). pose proof (pot_pos inp off). unfold unit_cost in *. split; [lia|]. unfold ok. cbn [mt_expression_fuel fst snd cnt]. lia.
Qed.
Lemma fuel_S : forall k, mt_expression_fuel nd (S k) = mt_expression_of (mt_primary_of nd (mt_expression_fuel nd k)).
Proof. reflexivity. Qed.
Lemma ok_fuel : forall dd p inp off, ok dd p (mt_expression_fuel nd (S (length inp))) inp off -> ok dd p (mt_expression nd) inp off.
Proof. intros dd p inp off H. unfold ok in *. unfold mt_expression. exact H. Qed.
Lemma pays_expression : pays dead (300 * a) (mt_expression nd).
Proof. intros inp off L Ho. destruct (@pays_fuel (S (length inp)) inp off L Ho) as (p & Hp & H). exists p. split; [exact Hp|now apply ok_fuel]. Qed.
Lemma ex_open : forall inp off s x, length inp = n -> off <= n -> gate inp off s x -> x = chr "(" \/ x = chr "[" -> ok dead (90 * a + 7 * pot inp (S s)) (mt_expression nd) inp off.
Proof.
  intros inp off s x L Ho G Sx. pose proof (@levels _ (300 * a) ltac:(lia) (pays_fuel (length inp))) as [_ K]. pose proof (@pr_open _ (300 * a) ltac:(lia) (pays_fuel (length inp)) inp off L Ho s x G Sx) as P.
  rewrite <- fuel_S in K. apply (K _ inp off L Ho) in P. apply ok_fuel. eapply ok_le; [exact P|lia].
Qed.
Lemma ex_single : forall inp off s x, length inp = n -> off <= n -> gate inp off s x -> x = chr "{" \/ x = chr "=" /\ nth_error inp (S s) <> Some (chr "=") -> ok dead (90 * a) (mt_expression nd) inp off.
Proof.
  intros inp off s x L Ho G Sx. pose proof (@levels _ (300 * a) ltac:(lia) (pays_fuel (length inp))) as [_ K]. pose proof (@pr_single _ (300 * a) ltac:(lia) (pays_fuel (length inp)) inp off L Ho s x G Sx) as P.
  rewrite <- fuel_S in K. apply (K _ inp off L Ho) in P. apply ok_fuel. eapply ok_le; [exact P|lia].
Qed.

(** An expression at an equals sign fails at once. *)
Definition flop {A} (k : nat) (g : mparser A) (inp : list N) (off : nat) : Prop := wp g inp off (fun _ _ => False) (fun c => c <= k).
Lemma flop_one : forall A B (k : parser N A -> parser N B) i (g : mparser A) inp off, plain k -> flop i g inp off -> flop (S i) (m_one k g) inp off.
Proof. intros A B k i g inp off K H. apply wp_one; [exact K|]. eapply wp_mono; [exact H|auto|cbv beta; intros; lia]. Qed.
Lemma flop_chain : forall i g (h : mparser (expr -> expr -> expr)) inp off, flop i g inp off -> flop (S i) (m_chain_left1 g h) inp off.
Proof. intros i g h inp off H. unfold flop, wp, m_chain_left1 in *. destruct (g inp off) as [[v d|er c| |] m]; cbn [fst snd up cnt] in *; [contradiction|lia..]. Qed.
Lemma flop_equals : forall inp off, length inp = n -> nth_error inp off = Some (chr "=") -> flop (81 * a) (mt_expression nd) inp off.
Proof.
  intros inp off L E. assert (Ho : off < n) by (rewrite <- L; apply nth_error_Some; congruence).
  assert (P : flop (80 * a) (mt_primary_of nd (mt_expression_fuel nd (length inp))) inp off).
  { assert (Hl : low (80 * a) (mt_primary_of nd (mt_expression_fuel nd (length inp))) inp off).
    { apply (@pr_low _ (300 * a)); [lia|apply pays_fuel|exact L|lia|]. intros s x Hx G. assert (G' : gate inp off off (chr "=")) by (split; [apply softs_nil|now split]). destruct (gate_once G G') as [_ ->]. destruct Hx; discriminate. }
    pose proof (@et_primary_of nd _ _ (et_expression_fuel nd (length inp)) inp off) as R.
    assert (Sk : exists l, skipn off inp = chr "=" :: l).
    { pose proof (nth_skip inp off 0) as K. rewrite Nat.add_0_r, E in K. destruct (skipn off inp) as [|x l]; [discriminate|]. injection K as ->. now exists l. }
    destruct Sk as [l Sk]. assert (F : exists er, primary_of nd (expression_fuel nd (length inp)) inp off = Failure er false).
    { destruct (@r_primary nd nd_ascii (expression_fuel nd (length inp)) [] (chr "=" :: l) ltac:(apply ws_nil) ltac:(cbn; tauto) (firstn off inp)) as [er F]. cbn [app] in F.
      rewrite <- Sk, firstn_skipn, firstn_length, Nat.min_l in F by lia. now exists er. }
    destruct F as [er F]. rewrite F in R. unfold flop, low, wp in *. destruct (mt_primary_of _ _ inp off) as [o m]. cbn [fst snd] in *. subst o. exact Hl. }
  assert (Q : flop (81 * a) (mt_expression_fuel nd (S (length inp))) inp off); [|unfold flop, wp in *; unfold mt_expression; exact Q].
  rewrite fuel_S. eapply wp_mono; [unfold mt_expression_of, mt_comparative, mt_additive, mt_moditive, mt_multitive, m_cache, m_id, m_map, m_name;
    repeat first [exact P | apply flop_chain | apply flop_one; [first [apply pl_map|apply pl_name]|]]|auto|cbv beta; intros; lia].
Qed.
Lemma dead_space : forall inp off, length inp = n -> off <= n -> quick mt_space inp off (fun p => softs inp off p /\ (dead inp off -> p = off)).
Proof.
  intros inp off L Ho. eapply qu_hoare; [eapply up_rest with (i := 2) (j := 4); [lia|apply re_tspace]|apply et_space|apply h_tspace|exact L|exact Ho|]. cbv beta. intros v d Hd E K.
  split; [eapply softs_text; [reflexivity|lia|now apply ws_soft]|]. intros (c & Hc & D). destruct d as [|d]; [lia|exfalso]. pose proof (nth_skip inp off 0) as K0. rewrite Nat.add_0_r, Hc in K0.
  destruct (skipn off inp) as [|y l]; [discriminate|]. injection K0 as ->. cbn [firstn] in K. inversion K as [|? ? Hy _]; subst. cbn in Hy.
  assert (c = 32 \/ c = 9 \/ c = 13 \/ c = 10)%N as [->|[->|[->| ->]]] by lia; destruct D as [D|[D|[D|[D|[D _]]]]]; discriminate.
Qed.

(** ** Lines *)
Lemma soft_bs : forall t, forallb soft t = true -> Forall (fun c => soft c = true) t.
Proof. intros t H. apply Forall_forall. now apply forallb_forall. Qed.
Ltac word_tag := first [apply qu_word | apply qu_letters]; [assumption|lia|apply soft_bs; reflexivity|discriminate].
Section Lines.
Variable line : mparser expr.
Variable e : nat.
Hypothesis He : 4 * a <= e.
Hypothesis PL : pays never e line.
(** An expression, and a closing token after it. *)
Lemma wp_closed : forall (g : mparser expr) c inp off, pays dead (4 * a) g -> length inp = n -> off <= n -> follows [c] ->
  wp (m_skip_right g (mt_tag [c])) inp off (fun p k => off < p /\ p <= n /\ k + pot inp p <= pot inp off) (fun k => k <= pot inp off).
Proof.
  intros g c inp off Pg L Ho Hc. unfold m_skip_right. w2. destruct (Pg inp off L Ho) as (pay & Hp & G). eapply wp_mono; [apply wp_ok; exact G| |]; cbv beta; [|intros; lia].
  intros p1 c1 (L1 & L2 & D). eapply wp_mono; [apply qu_close; [exact L|exact L2|exact Hc]| |]; cbv beta.
  - intros p3 c3 (C3 & N1 & N2 & T3 & N3). destruct D as [M3|[D _]]; [|contradiction]. pose proof (pot_le inp (i := p1) (j := p3) ltac:(lia)). lia.
  - intros c3 C3. destruct D as [M3|[_ M3]]; lia.
Qed.
Lemma pays_less : forall A dd i j (g : mparser A), pays dd j g -> i <= j -> pays dd i g.
Proof. intros A dd i j g H Hi inp off L Ho. destruct (H inp off L Ho) as (p & Hp & K). exists p. split; [lia|exact K]. Qed.
Lemma lazy_expr : pays dead (4 * a) (m_lazy (mt_expression nd)).
Proof. apply pays_one; [unfold keeps; one_out|]. eapply pays_less; [apply pays_expression|lia]. Qed.
Lemma expr4 : pays dead (4 * a) (mt_expression nd).
Proof. eapply pays_less; [apply pays_expression|lia]. Qed.
Lemma wp_line : forall inp off, length inp = n -> off <= n -> wp line inp off (fun p c => off < p /\ p <= n /\ c + pot inp p + 4 * a <= pot inp off) (fun c => c + 4 * a <= pot inp off).
Proof.
  intros inp off L Ho. destruct (PL inp L Ho) as (pay & Hp & G). eapply wp_mono; [apply wp_ok; exact G| |]; cbv beta; [|intros; lia]. intros p c (H1 & H2 & [H3|[[] _]]). lia.
Qed.
Lemma opens_one : forall A B (k : parser N A -> parser N B) cs m b (g : mparser A) inp off, plain k -> opens cs m b g inp off -> opens cs m (S b) (m_one k g) inp off.
Proof.
  intros A B k cs m b g inp off K H. apply wp_one; [exact K|]. eapply wp_mono; [exact H| |]; cbv beta.
  - intros p c (H1 & H2 & s & x & H3 & H4 & H5). split; [exact H1|]. split; [exact H2|]. exists s, x. split; [exact H3|]. split; [exact H4|lia].
  - intros c [H1|(s & x & H3 & H4 & H5)]; [left; lia|right; exists s, x; split; [exact H3|split; [exact H4|lia]]].
Qed.
Lemma opens_spaced : forall A cs m b (g : mparser A) inp off, length inp = n -> off <= n -> (forall i, i <= n -> opens cs m b g inp i) -> opens cs m (2 * a + 4 + b) (mt_spaced g) inp off.
Proof.
  intros A cs m b g inp off L Ho H. unfold opens, mt_spaced, m_skip_right, m_skip_left. w2. w2. nxt @qu_space; [|intros c Hc; left; lia]. intros p0 c0 (C0 & L0 & S0 & _). pose proof (proj1 S0) as H0.
  eapply wp_mono; [apply (H p0 L0)| |]; cbv beta.
  - intros p c (H1 & H2 & s & x & H3 & H4 & H5). apply (gate_from S0) in H4. nxt @qu_space.
    + intros p4 c4 (C4 & L4 & S7 & _). pose proof (proj1 S7) as Hs7. pose proof (pot_le inp (i := p) (j := p4) ltac:(lia)). split; [lia|]. split; [exact L4|]. exists s, x. split; [exact H3|split; [exact H4|lia]].
    + intros c4 C4. right. exists s, x. split; [exact H3|split; [exact H4|lia]].
  - intros c [H1|(s & x & H3 & H4 & H5)]; [left; lia|right; exists s, x; split; [exact H3|split; [now apply (gate_from S0)|lia]]].
Qed.
Lemma opens_le : forall A cs m b b' (g : mparser A) inp off, opens cs m b g inp off -> b <= b' -> opens cs m b' g inp off.
Proof.
  intros A cs m b b' g inp off H Hb. eapply wp_mono; [exact H| |]; cbv beta.
  - intros p c (H1 & H2 & s & x & H3 & H4 & H5). split; [exact H1|]. split; [exact H2|]. exists s, x. split; [exact H3|]. split; [exact H4|lia].
  - intros c [H1|(s & x & H3 & H4 & H5)]; [left; lia|right; exists s, x; split; [exact H3|split; [exact H4|lia]]].
Qed.
Lemma op_println : forall inp off, length inp = n -> off <= n -> opens [chr "("] 1 (16 * a) (mt_println nd) inp off.
Proof.
  intros inp off L Ho. unfold opens, mt_println, m_cache, m_id, m_name, m_attempt, mt_spaced, m_map, m_surround, m_skip_left, mt_lparen, mt_rparen, mt_semi_colon. w1. w1. w1. unfold m_skip_right at 1. w2. w2.
  nxt @qu_space; [|intros c Hc; left; lia]. intros p0 c0 (C0 & L0 & S0 & _). w1. unfold m_skip_right at 1. w2. w2.
  eapply wp_mono; [word_tag| |]; cbv beta; [|intros c Hc; left; lia]. intros q d (D0 & Lq & Sq & Hq). w2.
  nxt @qu_tag1; [|intros c Hc; left; lia]. intros p1 c1 (C1 & L1 & T1 & s & S1 & S2 & S3 & S4). pose proof (proj1 S0) as Hs0. pose proof (proj1 S1) as Hs1.
  pose proof (pot_le inp (i := S s) (j := p1) S2) as P1.
  assert (Gs : gate inp off s (chr "(")) by (split; [apply softs_app with p0; [exact S0|now apply softs_app with q]|now split]).
  eapply wp_mono; [apply wp_closed; [apply lazy_expr|exact L|exact L1|fol]| |]; cbv beta; [|intros c2 C2; at_gate s (chr "(") Gs].
  intros p2 c2 (M1 & M2 & M3). nxt @qu_tag1; [|intros c3 C3; at_gate s (chr "(") Gs]. intros p3 c3 (C3 & L3 & _ & s3 & S5 & S6 & _). pose proof (proj1 S5) as Hs5.
  nxt @qu_space; [|intros c4 C4; at_gate s (chr "(") Gs]. intros p4 c4 (C4 & L4 & S7 & _). pose proof (proj1 S7) as Hs7. pose proof (pot_le inp (i := p2) (j := p4) ltac:(lia)).
  at_gate s (chr "(") Gs.
Qed.
Lemma op_while : forall inp off, length inp = n -> off <= n -> opens [chr "("] 1 (16 * a) (mt_while nd line) inp off.
Proof.
  intros inp off L Ho. unfold opens, mt_while, m_cache, m_id, m_name, m_attempt, mt_spaced, m_map, m_and, m_surround, m_skip_left, mt_lparen, mt_rparen. w1. w1. w1. unfold m_skip_right at 1. w2. w2.
  nxt @qu_space; [|intros c Hc; left; lia]. intros p0 c0 (C0 & L0 & S0 & _). w1. w2. w2.
  eapply wp_mono; [word_tag| |]; cbv beta; [|intros c Hc; left; lia]. intros q d (D0 & Lq & Sq & Hq). w2.
  nxt @qu_tag1; [|intros c Hc; left; lia]. intros p1 c1 (C1 & L1 & T1 & s & S1 & S2 & S3 & S4). pose proof (proj1 S0) as Hs0. pose proof (proj1 S1) as Hs1.
  pose proof (pot_le inp (i := S s) (j := p1) S2) as P1.
  assert (Gs : gate inp off s (chr "(")) by (split; [apply softs_app with p0; [exact S0|now apply softs_app with q]|now split]).
  eapply wp_mono; [apply wp_closed; [apply lazy_expr|exact L|exact L1|fol]| |]; cbv beta; [|intros c2 C2; at_gate s (chr "(") Gs].
  intros p2 c2 (M1 & M2 & M3). unfold m_lazy. w1. nxt wp_line; [|intros c3 C3; at_gate s (chr "(") Gs]. intros p3 c3 (L3 & L3' & C3).
  nxt @qu_space; [|intros c4 C4; at_gate s (chr "(") Gs]. intros p4 c4 (C4 & L4 & S7 & _). pose proof (proj1 S7) as Hs7. pose proof (pot_le inp (i := p3) (j := p4) ltac:(lia)).
  at_gate s (chr "(") Gs.
Qed.
Lemma op_if : forall inp off, length inp = n -> off <= n -> opens [chr "("] 2 (16 * a) (mt_if nd line) inp off.
Proof.
  intros inp off L Ho. unfold mt_if, m_cache, m_id, m_name, m_attempt. unfold m_map at 1. eapply opens_le with (b := S (S (S (2 * a + 4 + S (12 * a))))); [|lia].
  apply opens_one; [apply pl_map|]. apply opens_one; [apply pl_name|]. apply opens_one; [apply pl_attempt|]. apply opens_spaced; [exact L|exact Ho|]. clear off Ho. intros off Ho. apply opens_one; [apply pl_map|].
  unfold opens, mt_if_head, m_and, m_skip_left, m_skip_right, mt_lparen, mt_rparen. w2. w2. w2. w2. w2. w2.
  eapply wp_mono; [word_tag| |]; cbv beta; [|intros c Hc; left; lia]. intros q d (D0 & Lq & Sq & Hq).
  nxt @qu_space; [|intros c Hc; left; lia]. intros q' d' (D0' & Lq' & Sq' & _).
  nxt @qu_tag1; [|intros c Hc; left; lia]. intros p1 c1 (C1 & L1 & T1 & s & S1 & S2 & S3 & S4). pose proof (proj1 S1) as Hs1. pose proof (proj1 Sq') as Hsq'.
  pose proof (pot_le inp (i := S s) (j := p1) S2) as P1.
  assert (Gs : gate inp off s (chr "(")) by (split; [apply softs_app with q; [exact Sq|now apply softs_app with q']|now split]).
  destruct (expr4 inp L L1) as (pay & Hp & G). eapply wp_mono; [apply wp_ok; exact G| |]; cbv beta; [|intros c2 C2; at_gate s (chr "(") Gs].
  intros p2 c2 (M1 & M2 & M3). eapply wp_mono; [apply qu_close; [exact L|exact M2|fol]| |]; cbv beta; [|intros c3 C3; destruct M3 as [M3|[_ M3]]; at_gate s (chr "(") Gs].
  intros p3 c3 (C3 & N1 & N2 & _ & N3). destruct M3 as [M3|[D _]]; [|contradiction]. pose proof (pot_le inp (i := p2) (j := p3) ltac:(lia)).
  nxt wp_line; [|intros c4 C4; at_gate s (chr "(") Gs]. intros p4 c4 (L4 & L4' & C4). pose proof (pot_le inp (i := p3) (j := p4) ltac:(lia)).
  apply wp_opt. w2. eapply wp_mono; [word_tag| |]; cbv beta; [|intros c5 C5; split; at_gate s (chr "(") Gs].
  intros q5 c5 (C5 & L5 & _ & H5). pose proof (pot_le inp (i := p4) (j := q5) ltac:(lia)). nxt wp_line; [|intros c6 C6; split; at_gate s (chr "(") Gs].
  intros p6 c6 (L6 & L6' & C6). at_gate s (chr "(") Gs.
Qed.
Lemma op_for : forall inp off, length inp = n -> off <= n -> opens [chr "("] 2 (16 * a) (mt_for nd line) inp off.
Proof.
  intros inp off L Ho. unfold mt_for, m_cache, m_id, m_name, m_attempt. unfold m_map at 1. eapply opens_le with (b := S (S (S (2 * a + 4 + S (12 * a))))); [|lia].
  apply opens_one; [apply pl_map|]. apply opens_one; [apply pl_name|]. apply opens_one; [apply pl_attempt|]. apply opens_spaced; [exact L|exact Ho|]. clear off Ho. intros off Ho. apply opens_one; [apply pl_map|].
  unfold opens, mt_for_params, m_and, m_skip_left, m_skip_right, mt_lparen, mt_rparen. w2. w2. w2.
  eapply wp_mono; [word_tag| |]; cbv beta; [|intros c Hc; left; lia]. intros q d (D0 & Lq & Sq & Hq).
  nxt @qu_space; [|intros c Hc; left; lia]. intros q' d' (D0' & Lq' & Sq' & _). unfold m_map. w1. w2. w2. w2. w2. w2. w2. w2.
  nxt @qu_tag1; [|intros c Hc; left; lia]. intros p1 c1 (C1 & L1 & T1 & s & S1 & S2 & S3 & S4). pose proof (proj1 S1) as Hs1. pose proof (proj1 Sq') as Hsq'.
  pose proof (pot_le inp (i := S s) (j := p1) S2) as P1.
  assert (Gs : gate inp off s (chr "(")) by (split; [apply softs_app with q; [exact Sq|now apply softs_app with q']|now split]).
  nxt @qu_ident; [|intros c Hc; at_gate s (chr "(") Gs]. intros i1 k1 (K1 & I1 & _ & J1 & _). w2. w2.
  nxt @qu_space; [|intros c Hc; at_gate s (chr "(") Gs]. intros i2 k2 (K2 & I2 & J2 & _). pose proof (proj1 J2).
  eapply wp_mono; [word_tag| |]; cbv beta; [|intros c Hc; at_gate s (chr "(") Gs]. intros i3 k3 (K3 & I3 & _ & J3).
  nxt @qu_space; [|intros c Hc; at_gate s (chr "(") Gs]. intros i4 k4 (K4 & I4 & J4 & _). pose proof (proj1 J4). pose proof (pot_le inp (i := p1) (j := i4) ltac:(lia)).
  destruct (expr4 inp L I4) as (pay & Hp & G). eapply wp_mono; [apply wp_ok; exact G| |]; cbv beta; [|intros c2 C2; at_gate s (chr "(") Gs].
  intros p2 c2 (M1 & M2 & M3). assert (M4 : c2 <= pay) by (destruct M3 as [M3|[_ M3]]; lia).
  eapply wp_mono; [word_tag| |]; cbv beta; [|intros c Hc; at_gate s (chr "(") Gs]. intros i5 k5 (K5 & I5 & _ & J5). pose proof (pot_le inp (i := i4) (j := i5) ltac:(lia)).
  destruct (expr4 inp L I5) as (pay2 & Hp2 & G2). eapply wp_mono; [apply wp_ok; exact G2| |]; cbv beta; [|intros c6 C6; at_gate s (chr "(") Gs].
  intros p6 c6 (M6 & M7 & M8). eapply wp_mono; [apply dead_space; assumption| |]; cbv beta; [|intros c Hc; destruct M8 as [M8|[_ M8]]; at_gate s (chr "(") Gs].
  intros p7 c7 (C7 & L7 & S7 & D7). pose proof (proj1 S7). eapply wp_mono; [apply qu_close; [exact L|exact L7|fol]| |]; cbv beta; [|intros c3 C3; destruct M8 as [M8|[_ M8]]; at_gate s (chr "(") Gs].
  intros p8 c8 (C8 & N1 & N2 & _ & N3). destruct M8 as [M8|[D M8]]; [|elim N3; rewrite (D7 D); exact D]. pose proof (pot_le inp (i := p6) (j := p8) ltac:(lia)).
  unfold m_lazy. w1. nxt wp_line; [|intros c9 C9; at_gate s (chr "(") Gs]. intros p9 c9 (L9 & L9' & C9). at_gate s (chr "(") Gs.
Qed.
Lemma op_block : forall inp off, length inp = n -> off <= n -> opens [chr "{"] 2 (16 * a) (mt_block line) inp off.
Proof.
  intros inp off L Ho. unfold mt_block, m_cache, m_id, m_name. unfold m_map at 1. eapply opens_le with (b := S (S (2 * a + 4 + S (12 * a)))); [|lia].
  apply opens_one; [apply pl_map|]. apply opens_one; [apply pl_name|]. apply opens_spaced; [exact L|exact Ho|]. clear off Ho. intros off Ho. apply opens_one; [apply pl_map|].
  unfold opens, m_surround, m_skip_left, m_skip_right, mt_lbrace, mt_rbrace. w2.
  nxt @qu_tag1; [|intros c Hc; left; lia]. intros p1 c1 (C1 & L1 & T1 & s & S1 & S2 & S3 & S4). pose proof (proj1 S1) as Hs1. pose proof (pot_le inp (i := S s) (j := p1) S2) as P1.
  assert (Gs : gate inp off s (chr "{")) by (split; [exact S1|now split]). w2. unfold m_many0.
  assert (PZ : pays never (3 * a) (m_lazy line)) by (apply pays_one; [unfold keeps; one_out|]; eapply pays_less; [exact PL|lia]).
  eapply wp_mono; [apply (@wp_many _ unit (m_lazy line) (3 * a)); [lia|exact PZ|exact L|exact L1]| |]; cbv beta; [|intros c2 C2; at_gate s (chr "{") Gs].
  intros p2 c2 (M1 & M2 & M3). nxt @qu_tag1; [|intros c3 C3; at_gate s (chr "{") Gs]. intros p3 c3 (C3 & L3 & _ & s3 & S5 & S6 & _). pose proof (proj1 S5) as Hs5. pose proof (pot_le inp (i := p2) (j := p3) ltac:(lia)). at_gate s (chr "{") Gs.
Qed.
Lemma op_assign : forall inp off, length inp = n -> off <= n -> opens [chr "="] 1 (16 * a) (mt_assignment nd) inp off.
Proof.
  intros inp off L Ho. unfold mt_assignment, m_cache, m_id, m_name, m_attempt. unfold m_map at 1. eapply opens_le with (b := S (S (S (2 * a + 4 + S (12 * a))))); [|lia].
  apply opens_one; [apply pl_map|]. apply opens_one; [apply pl_name|]. apply opens_one; [apply pl_attempt|]. apply opens_spaced; [exact L|exact Ho|]. clear off Ho. intros off Ho. apply opens_one; [apply pl_map|].
  unfold opens, m_and, m_skip_left, m_skip_right, mt_semi_colon. w2. w2. w2.
  nxt @qu_ident; [|intros c Hc; left; lia]. intros q d (D0 & Lq & Sq & Hq & _).
  nxt @qu_tag1; [|intros c Hc; left; lia]. intros p1 c1 (C1 & L1 & T1 & s & S1 & S2 & S3 & S4). pose proof (proj1 S1) as Hs1. pose proof (pot_le inp (i := S s) (j := p1) S2) as P1.
  assert (Gs : gate inp off s (chr "=")) by (split; [now apply softs_app with q|now split]).
  destruct (expr4 inp L L1) as (pay & Hp & G). eapply wp_mono; [apply wp_ok; exact G| |]; cbv beta; [|intros c2 C2; at_gate s (chr "=") Gs].
  intros p2 c2 (M1 & M2 & M3). eapply wp_mono; [apply qu_close; [exact L|exact M2|fol]| |]; cbv beta; [|intros c3 C3; destruct M3 as [M3|[_ M3]]; at_gate s (chr "=") Gs].
  intros p3 c3 (C3 & N1 & N2 & _ & N3). destruct M3 as [M3|[D _]]; [|contradiction]. pose proof (pot_le inp (i := p2) (j := p3) ltac:(lia)). at_gate s (chr "=") Gs.
Qed.
(** x == ... is no assignment. *)
Lemma as_double : forall inp off s, length inp = n -> off <= n -> gate inp off s (chr "=") -> nth_error inp (S s) = Some (chr "=") -> ok never (100 * a) (mt_assignment nd) inp off.
Proof.
  intros inp off s L Ho G Hn. apply ok_wp. unfold mt_assignment, m_cache, m_id, m_name, m_attempt, mt_spaced, m_map, m_and, m_skip_left, m_skip_right, mt_semi_colon. w1. w1. w1. w2. w2.
  nxt @qu_space; [|intros c Hc; lia]. intros p0 c0 (C0 & L0 & S0 & _). w1. w2. w2. w2.
  nxt @qu_ident; [|intros c Hc; lia]. intros q d (D0 & Lq & Sq & Hq & _).
  nxt @qu_tag1; [|intros c Hc; lia]. intros p1 c1 (C1 & L1 & T1 & s' & S1 & S2 & S3 & [S4 S5]).
  assert (Gs : gate inp off s' (chr "=")) by (split; [apply softs_app with p0; [exact S0|now apply softs_app with q]|now split]). destruct (gate_once G Gs) as [<- _].
  assert (E1 : p1 = S s). { destruct (Nat.eq_dec p1 (S s)) as [E|E]; [exact E|]. destruct (S5 (S s) ltac:(lia)) as (c & Hc & Sc). rewrite Hn in Hc. injection Hc as <-. discriminate. }
  subst p1. eapply wp_mono; [apply (@flop_equals inp (S s) L Hn)| |]; cbv beta; [intros ? ? []|intros; lia].
Qed.
Lemma ok_expression_line : forall p inp off, length inp = n -> off <= n -> ok dead p (mt_expression nd) inp off -> ok never (p + 2 * a) (mt_expression_line nd) inp off.
Proof.
  intros p inp off L Ho H. apply ok_wp. unfold mt_expression_line, m_cache, m_id, m_map, m_name, m_attempt, m_skip_right, mt_semi_colon. w1. w1. w1. w2. eapply wp_mono; [apply wp_ok; exact H| |]; cbv beta; [|intros; lia].
  intros p2 c2 (M1 & M2 & M3). eapply wp_mono; [apply qu_close; [exact L|exact M2|fol]| |]; cbv beta; [|intros c3 C3; destruct M3 as [M3|[_ M3]]; lia].
  intros p3 c3 (C3 & N1 & N2 & _ & N3). destruct M3 as [M3|[D _]]; [|contradiction]. pose proof (pot_le inp (i := p2) (j := p3) ltac:(lia)). split; [lia|]. split; [lia|]. left. lia.
Qed.
(** The alternatives of a line at one place: what each may cost. *)
Definition lines_at (inp : list N) (off : nat) (p1 p2 p3 p4 p5 p6 p7 : nat) : Prop :=
  ok never p1 (mt_println nd) inp off /\ ok never p2 (mt_while nd line) inp off /\ ok never p3 (mt_if nd line) inp off /\ ok never p4 (mt_for nd line) inp off /\
  ok never p5 (mt_assignment nd) inp off /\ ok never p6 (mt_expression_line nd) inp off /\ ok never p7 (mt_block line) inp off.
Definition body : mparser expr :=
  m_or (m_or (m_or (m_or (m_or (m_or (mt_println nd) (m_lazy (mt_while nd line))) (m_lazy (mt_if nd line))) (m_lazy (mt_for nd line))) (mt_assignment nd)) (mt_expression_line nd)) (mt_block line).
Lemma ok_body : forall inp off p1 p2 p3 p4 p5 p6 p7, lines_at inp off p1 p2 p3 p4 p5 p6 p7 -> ok never (p1 + p2 + p3 + p4 + p5 + p6 + p7 + 9) body inp off.
Proof.
  intros inp off p1 p2 p3 p4 p5 p6 p7 (H1 & H2 & H3 & H4 & H5 & H6 & H7). eapply ok_le; [unfold body, m_lazy; repeat (eapply ok_or; [|first [eassumption|apply ok_one; [unfold keeps; one_out|]; eassumption]]); exact H1|lia].
Qed.
Lemma body_pays : forall inp off, length inp = n -> off <= n -> ok never (pot inp off - 80 * a) body inp off.
Proof.
  intros inp off L Ho. pose proof (pot_pos inp off) as Pp. unfold unit_cost in Pp.
  pose proof (@op_println inp off L Ho) as O1. pose proof (@op_while inp off L Ho) as O2. pose proof (@op_if inp off L Ho) as O3. pose proof (@op_for inp off L Ho) as O4. pose proof (@op_assign inp off L Ho) as O5. pose proof (@op_block inp off L Ho) as O7.
  assert (Gen : (forall s x, In x [chr "("; chr "{"] -> ~ gate inp off s x) -> (forall s, ~ gate inp off s (chr "=")) \/ (exists s, gate inp off s (chr "=") /\ nth_error inp (S s) = Some (chr "=")) -> ok never (pot inp off - 80 * a) body inp off).
  { intros Z1 Z2. assert (Zp : forall s x, In x [chr "("] -> ~ gate inp off s x) by (intros s x [<-|[]]; apply Z1; cbn; tauto). assert (Zb : forall s x, In x [chr "{"] -> ~ gate inp off s x) by (intros s x [<-|[]]; apply Z1; cbn; tauto).
    assert (K5 : ok never (100 * a) (mt_assignment nd) inp off).
    { destruct Z2 as [Z2|(s & G & Hn)]; [|now apply as_double with s]. eapply ok_le; [apply (@opens_no _ never _ _ _ _ _ _ O5)|lia]. intros s x [<-|[]]. apply Z2. }
    destruct (@pays_expression inp off L Ho) as (pay & Hp & K6). apply (@ok_expression_line _ inp off L Ho) in K6. eapply ok_le.
    - apply ok_body. repeat split; [apply (@opens_no _ never _ _ _ _ _ _ O1 Zp)|apply (@opens_no _ never _ _ _ _ _ _ O2 Zp)|apply (@opens_no _ never _ _ _ _ _ _ O3 Zp)|apply (@opens_no _ never _ _ _ _ _ _ O4 Zp)|exact K5|exact K6|apply (@opens_no _ never _ _ _ _ _ _ O7 Zb)].
    - lia. }
  destruct (gate_dec inp off) as [(s & x & G)|Z]; [|apply Gen; [intros; apply Z|left; intros; apply Z]].
  pose proof (proj1 (proj1 G)) as Hs1. assert (Hs2 : s < n) by (rewrite <- L; apply nth_error_Some; rewrite (proj1 (proj2 G)); discriminate).
  assert (NZ : forall c, c <> x -> forall s' x', In x' [c] -> ~ gate inp off s' x') by (intros c Hc s' x' [<-|[]] G'; destruct (gate_once G G'); congruence).
  destruct (N.eq_dec x (chr "(")) as [->|N1]; [|destruct (N.eq_dec x (chr "[")) as [->|N2]; [|destruct (N.eq_dec x (chr "{")) as [->|N3]; [|destruct (N.eq_dec x (chr "=")) as [->|N4]]]].
  - pose proof (@pot_at inp off s _ Hs1 Hs2 (proj1 (proj2 G)) eq_refl) as P. unfold unit_cost in P. pose proof (@ex_open inp off s _ L Ho G ltac:(auto)) as K6. apply (@ok_expression_line _ inp off L Ho) in K6. eapply ok_le.
    + apply ok_body. repeat split; [apply (@opens_ok _ never _ _ _ _ _ _ _ _ O1 G)|apply (@opens_ok _ never _ _ _ _ _ _ _ _ O2 G)|apply (@opens_ok _ never _ _ _ _ _ _ _ _ O3 G)|apply (@opens_ok _ never _ _ _ _ _ _ _ _ O4 G)|
        apply (@opens_no _ never _ _ _ _ _ _ O5 (NZ (chr "=") ltac:(discriminate)))|exact K6|apply (@opens_no _ never _ _ _ _ _ _ O7 (NZ (chr "{") ltac:(discriminate)))].
    + lia.
  - pose proof (@pot_at inp off s _ Hs1 Hs2 (proj1 (proj2 G)) eq_refl) as P. unfold unit_cost in P. pose proof (@ex_open inp off s _ L Ho G ltac:(auto)) as K6. apply (@ok_expression_line _ inp off L Ho) in K6. eapply ok_le.
    + apply ok_body. repeat split; [apply (@opens_ok _ never _ _ _ _ _ _ _ _ O1 G)|apply (@opens_ok _ never _ _ _ _ _ _ _ _ O2 G)|apply (@opens_ok _ never _ _ _ _ _ _ _ _ O3 G)|apply (@opens_ok _ never _ _ _ _ _ _ _ _ O4 G)|
        apply (@opens_no _ never _ _ _ _ _ _ O5 (NZ (chr "=") ltac:(discriminate)))|exact K6|apply (@opens_no _ never _ _ _ _ _ _ O7 (NZ (chr "{") ltac:(discriminate)))].
    + lia.
  - pose proof (@pot_at inp off s _ Hs1 Hs2 (proj1 (proj2 G)) eq_refl) as P. unfold unit_cost in P. pose proof (@ex_single inp off s _ L Ho G ltac:(auto)) as K6. apply (@ok_expression_line _ inp off L Ho) in K6. eapply ok_le.
    + apply ok_body. repeat split; [apply (@opens_ok _ never _ _ _ _ _ _ _ _ O1 G)|apply (@opens_ok _ never _ _ _ _ _ _ _ _ O2 G)|apply (@opens_ok _ never _ _ _ _ _ _ _ _ O3 G)|apply (@opens_ok _ never _ _ _ _ _ _ _ _ O4 G)|
        apply (@opens_no _ never _ _ _ _ _ _ O5 (NZ (chr "=") ltac:(discriminate)))|exact K6|apply (@opens_ok _ never _ _ _ _ _ _ _ _ O7 G)].
    + lia.
  - assert (Dn : nth_error inp (S s) = Some (chr "=") \/ nth_error inp (S s) <> Some (chr "=")).
    { destruct (nth_error inp (S s)) as [c|]; [|right; discriminate]. destruct (N.eq_dec c (chr "=")) as [->|Hc]; [now left|right; congruence]. }
    destruct Dn as [Hn|Hn]; [apply Gen; [|right; now exists s]; intros s' x' I' G'; destruct (gate_once G G') as [_ <-]; destruct I' as [I'|[I'|[]]]; discriminate|].
    pose proof (@pot_step inp off (S s) ltac:(lia) Hs2) as P. unfold unit_cost in P. pose proof (@ex_single inp off s _ L Ho G ltac:(auto)) as K6. apply (@ok_expression_line _ inp off L Ho) in K6. eapply ok_le.
    + apply ok_body. repeat split; [apply (@opens_no _ never _ _ _ _ _ _ O1 (NZ (chr "(") ltac:(discriminate)))|apply (@opens_no _ never _ _ _ _ _ _ O2 (NZ (chr "(") ltac:(discriminate)))|apply (@opens_no _ never _ _ _ _ _ _ O3 (NZ (chr "(") ltac:(discriminate)))|apply (@opens_no _ never _ _ _ _ _ _ O4 (NZ (chr "(") ltac:(discriminate)))|
        apply (@opens_ok _ never _ _ _ _ _ _ _ _ O5 G)|exact K6|apply (@opens_no _ never _ _ _ _ _ _ O7 (NZ (chr "{") ltac:(discriminate)))].
    + lia.
  - apply Gen; [intros s' x' I' G'; destruct (gate_once G G') as [_ <-]; destruct I' as [I'|[I'|[]]]; congruence|left; intros s' G'; destruct (gate_once G G') as [_ E]; congruence].
Qed.
Lemma pays_line_of : pays never (50 * a) (mt_line_of nd line).
Proof.
  intros inp off L Ho. pose proof (pot_pos inp off) as Pp. unfold unit_cost in Pp. exists (pot inp off - 50 * a). split; [lia|]. apply ok_wp. unfold mt_line_of, m_cache, m_id, m_map, m_name, mt_spaced, m_skip_left, m_skip_right. fold body. w1. w1. w2. w2.
  nxt @qu_space; [|intros c Hc; lia]. intros p0 c0 (C0 & L0 & S0 & _). pose proof (proj1 S0). pose proof (pot_pos inp p0) as Pq. unfold unit_cost in Pq. pose proof (pot_le inp (i := off) (j := p0) ltac:(lia)).
  eapply wp_mono; [apply wp_ok, body_pays; [exact L|exact L0]| |]; cbv beta; [|intros; lia]. intros p2 c2 (M1 & M2 & [M3|[[] _]]).
  nxt @qu_space; [|intros c Hc; lia]. intros p4 c4 (C4 & L4 & S7 & _). pose proof (proj1 S7) as Hs7. pose proof (pot_le inp (i := p2) (j := p4) ltac:(lia)). split; [lia|]. split; [lia|]. left. lia.
Qed.
End Lines.
Lemma pays_line_fuel : forall fuel, pays never (50 * a) (mt_line_fuel nd fuel).
Proof.
  induction fuel as [|fuel IH]; [|cbn [mt_line_fuel]; apply (@pays_line_of _ (50 * a)); [lia|exact IH]].
  intros inp off L Ho. exists (pot inp off - 50 * a). pose proof (pot_pos inp off). unfold unit_cost in *. split; [lia|]. unfold ok. cbn [mt_line_fuel fst snd cnt]. lia.
Qed.
Lemma pays_line : pays never (50 * a) (mt_line nd).
Proof. intros inp off L Ho. destruct (@pays_line_fuel (S (length inp)) inp off L Ho) as (p & Hp & H). exists p. split; [exact Hp|]. unfold ok in *. unfold mt_line. exact H. Qed.
Lemma lines_calls : forall inp, length inp = n -> cnt (snd (mt_lines nd inp 0)) <= 2 * pot inp 0 + 4 * a.
Proof.
  intros inp L. assert (H : wp (mt_lines nd) inp 0 (fun _ c => c <= 2 * pot inp 0 + 4 * a) (fun c => c <= 2 * pot inp 0 + 4 * a)).
  { unfold mt_lines, m_skip_right. w2. w2. unfold m_many1. eapply wp_mono; [apply (@wp_many _ unit (mt_line nd) (50 * a)); [lia|apply pays_line|exact L|lia]| |]; cbv beta; [|intros; lia].
    intros p1 c1 (M1 & M2 & M3). nxt @qu_space; [|intros c Hc; lia]. intros p2 c2 (C2 & L2 & _). unfold wp, m_leaf. cbn [fst snd cnt]. destruct (p_end inp p2); lia. }
  unfold wp in H. now destruct (fst (mt_lines nd inp 0)).
Qed.

(** ** Programs *)
Lemma pays_ident : pays dead (3 * a) mt_ident.
Proof.
  intros inp off L Ho. pose proof (pot_pos inp off) as Pp. unfold unit_cost in Pp. eexists. split; [|apply low_ok; [exact Ho|eapply quick_low; [now apply qu_ident|cbv beta; tauto]]]. unfold unit_cost. lia.
Qed.
Lemma op_global : forall inp off, length inp = n -> off <= n -> opens [chr "="] 1 (16 * a) (mt_global nd) inp off.
Proof.
  intros inp off L Ho. unfold mt_global, m_cache, m_id, m_name. unfold m_map at 1. apply (opens_le (le_n _)) with (b := S (S (2 * a + 4 + S (12 * a)))); [|lia].
  apply (opens_one (le_n _)); [apply pl_map|]. apply (opens_one (le_n _)); [apply pl_name|]. apply (opens_spaced (le_n _)); [exact L|exact Ho|]. clear off Ho. intros off Ho. apply (opens_one (le_n _)); [apply pl_map|].
  unfold opens, m_and, m_skip_left, m_skip_right, mt_semi_colon. w2. w2. w2. w2.
  eapply wp_mono; [word_tag| |]; cbv beta; [|intros c Hc; left; lia]. intros q0 d0 (D00 & Lq0 & Sq0 & Hq0).
  nxt @qu_ident; [|intros c Hc; left; lia]. intros q d (D0 & Lq & Sq & Hq & _).
  nxt @qu_tag1; [|intros c Hc; left; lia]. intros p1 c1 (C1 & L1 & T1 & s & S1 & S2 & S3 & S4). pose proof (proj1 S1) as Hs1. pose proof (pot_le inp (i := S s) (j := p1) S2) as P1.
  assert (Gs : gate inp off s (chr "=")) by (split; [apply softs_app with q0; [exact Sq0|now apply softs_app with q]|now split]).
  destruct (expr4 (le_n _) inp L L1) as (pay & Hp & G). eapply wp_mono; [apply wp_ok; exact G| |]; cbv beta; [|intros c2 C2; at_gate s (chr "=") Gs].
  intros p2 c2 (M1 & M2 & M3). eapply wp_mono; [apply qu_close; [exact L|exact M2|fol]| |]; cbv beta; [|intros c3 C3; destruct M3 as [M3|[_ M3]]; at_gate s (chr "=") Gs].
  intros p3 c3 (C3 & N1 & N2 & _ & N3). destruct M3 as [M3|[D _]]; [|contradiction]. pose proof (pot_le inp (i := p2) (j := p3) ltac:(lia)). at_gate s (chr "=") Gs.
Qed.
Lemma op_function : forall inp off, length inp = n -> off <= n -> opens [chr "("] 2 (40 * a) (mt_function_definition nd) inp off.
Proof.
  intros inp off L Ho. unfold mt_function_definition, m_cache, m_id, m_name. unfold m_map at 1. apply (opens_le (le_n _)) with (b := S (S (2 * a + 4 + S (36 * a)))); [|lia].
  apply (opens_one (le_n _)); [apply pl_map|]. apply (opens_one (le_n _)); [apply pl_name|]. apply (opens_spaced (le_n _)); [exact L|exact Ho|]. clear off Ho. intros off Ho. apply (opens_one (le_n _)); [apply pl_map|].
  unfold opens, m_and, m_surround, m_skip_left, mt_lparen, mt_rparen, m_many0_sep. w2. w2. unfold m_skip_right at 1. w2. w2. w2. w2.
  nxt @qu_space; [|intros c Hc; left; lia]. intros q0 d0 (D00 & Lq0 & Sq0 & _). pose proof (proj1 Sq0).
  eapply wp_mono; [word_tag| |]; cbv beta; [|intros c Hc; left; lia]. intros q1 d1 (D01 & Lq1 & Sq1 & Hq1).
  nxt @qu_space; [|intros c Hc; left; lia]. intros q2 d2 (D02 & Lq2 & Sq2 & _). pose proof (proj1 Sq2).
  nxt @qu_ident; [|intros c Hc; left; lia]. intros q3 d3 (D03 & Lq3 & Sq3 & Hq3 & _).
  nxt @qu_space; [|intros c Hc; left; lia]. intros q4 d4 (D04 & Lq4 & Sq4 & _). pose proof (proj1 Sq4). w2.
  nxt @qu_tag1; [|intros c Hc; left; lia]. intros p1 c1 (C1 & L1 & T1 & s & S1 & S2 & S3 & S4). pose proof (proj1 S1) as Hs1. pose proof (pot_le inp (i := S s) (j := p1) S2) as P1.
  assert (Gs : gate inp off s (chr "(")) by (split; [apply softs_app with q0; [exact Sq0|]; apply softs_app with q1; [exact Sq1|]; apply softs_app with q2; [exact Sq2|]; apply softs_app with q3; [exact Sq3|]; now apply softs_app with q4|now split]).
  eapply wp_mono; [apply (@wp_args _ (le_n _) _ _ (3 * a)); [lia|apply pays_ident|exact L|exact L1|fol]| |]; cbv beta; [|intros c2 C2; at_gate s (chr "(") Gs].
  intros p2 c2 (M1 & M2 & _ & M3). eapply wp_mono; [apply (@op_block _ (50 * a)); [lia|apply pays_line|exact L|exact M2]| |]; cbv beta.
  - intros p c (U1 & U2 & s2 & x2 & I2 & G2 & U3). destruct I2 as [<-|[]]. pose proof (proj1 (proj1 G2)) as Hs2. assert (Hs3 : s2 < n) by (rewrite <- L; apply nth_error_Some; rewrite (proj1 (proj2 G2)); discriminate).
    pose proof (@pot_at inp p2 s2 _ Hs2 Hs3 (proj1 (proj2 G2)) eq_refl) as P. at_gate s (chr "(") Gs.
  - intros c [Hc|(s2 & x2 & I2 & G2 & U3)]; [at_gate s (chr "(") Gs|]. destruct I2 as [<-|[]]. pose proof (proj1 (proj1 G2)) as Hs2. assert (Hs3 : s2 < n) by (rewrite <- L; apply nth_error_Some; rewrite (proj1 (proj2 G2)); discriminate).
    pose proof (@pot_at inp p2 s2 _ Hs2 Hs3 (proj1 (proj2 G2)) eq_refl) as P. at_gate s (chr "(") Gs.
Qed.
Lemma pays_top : pays never (50 * a) (mt_top_level_definition nd).
Proof.
  intros inp off L Ho. pose proof (pot_pos inp off) as Pp. unfold unit_cost in Pp. exists (pot inp off - 50 * a). split; [lia|]. unfold mt_top_level_definition, m_name.
  pose proof (@op_global inp off L Ho) as O1. pose proof (@op_function inp off L Ho) as O2.
  assert (NZ : forall s x, gate inp off s x -> forall c, c <> x -> forall s' x', In x' [c] -> ~ gate inp off s' x') by (intros s x G c Hc s' x' [<-|[]] G'; destruct (gate_once G G'); congruence).
  assert (Hs : forall s x, gate inp off s x -> off <= s /\ s < n) by (intros s x G; split; [exact (proj1 (proj1 G))|rewrite <- L; apply nth_error_Some; rewrite (proj1 (proj2 G)); discriminate]).
  assert (D : (exists s, gate inp off s (chr "=")) \/ (exists s, gate inp off s (chr "(")) \/ (forall s, ~ gate inp off s (chr "=")) /\ (forall s, ~ gate inp off s (chr "("))).
  { destruct (gate_dec inp off) as [(s & x & G)|Z]; [|right; right; split; intros s; apply Z]. destruct (N.eq_dec x (chr "=")) as [->|N1]; [left; now exists s|]. destruct (N.eq_dec x (chr "(")) as [->|N2]; [right; left; now exists s|].
    right. right. split; intros s' G'; destruct (gate_once G G'); congruence. }
  destruct D as [(s & G)|[(s & G)|[Z1 Z2]]].
  - destruct (Hs s _ G) as [Hs1 Hs2]. pose proof (@pot_step inp off (S s) ltac:(lia) Hs2) as P. unfold unit_cost in P.
    eapply ok_le; [apply ok_one; [unfold keeps; one_out|]; apply ok_or; [apply (@opens_ok _ never _ _ _ _ _ _ _ _ O1 G)|apply (@opens_no _ never _ _ _ _ _ _ O2 (NZ s _ G (chr "(") ltac:(discriminate)))]|lia].
  - destruct (Hs s _ G) as [Hs1 Hs2]. pose proof (@pot_at inp off s _ Hs1 Hs2 (proj1 (proj2 G)) eq_refl) as P. unfold unit_cost in P.
    eapply ok_le; [apply ok_one; [unfold keeps; one_out|]; apply ok_or; [apply (@opens_no _ never _ _ _ _ _ _ O1 (NZ s _ G (chr "=") ltac:(discriminate)))|apply (@opens_ok _ never _ _ _ _ _ _ _ _ O2 G)]|lia].
  - eapply ok_le; [apply ok_one; [unfold keeps; one_out|]; apply ok_or; [apply (@opens_no _ never _ _ _ _ _ _ O1)|apply (@opens_no _ never _ _ _ _ _ _ O2)]|lia]; intros s x [<-|[]]; auto.
Qed.
Lemma program_calls : forall inp, length inp = n -> cnt (snd (mt_program nd inp 0)) <= 2 * pot inp 0 + 4 * a.
Proof.
  intros inp L. assert (H : wp (mt_program nd) inp 0 (fun _ c => c <= 2 * pot inp 0 + 4 * a) (fun c => c <= 2 * pot inp 0 + 4 * a)).
  { unfold mt_program, m_skip_left, m_id, m_map. w2. nxt @qu_space; [|intros c Hc; lia]. intros p2 c2 (C2 & L2 & _). w1. w1. unfold m_many0. pose proof (pot_le inp (i := 0) (j := p2) ltac:(lia)).
    eapply wp_mono; [apply (@wp_many _ unit (mt_top_level_definition nd) (50 * a)); [lia|apply pays_top|exact L|exact L2]| |]; cbv beta; intros; lia. }
  unfold wp in H. now destruct (fst (mt_program nd inp 0)).
Qed.
End Count.

(** The bound, in numbers. *)
Definition calls_bound (inp : list N) : nat := 512 * 512 * (length inp + 1) ^ 2 * 16 ^ marks inp.
Lemma bound_in : forall inp c, (forall a, 128 * S (length inp) <= a -> c <= 2 * pot (length inp) a inp 0 + 4 * a) -> c <= calls_bound inp.
Proof.
  intros inp c H. specialize (H (128 * S (length inp)) (le_n _)). unfold pot, unit_cost in H. cbn [skipn] in H. unfold calls_bound. rewrite Nat.sub_0_r in H.
  assert (P : 1 <= 16 ^ marks inp) by (pose proof (Nat.pow_nonzero 16 (marks inp)); lia). revert H P. generalize (16 ^ marks inp). intros y H P. rewrite (Nat.add_comm (length inp) 1). cbn [Nat.add]. revert H. generalize (length inp). intros m H.
  rewrite Nat.pow_2_r. assert (K : S m <= S m * S m * y) by nia. revert H K.
  replace (2 * (512 * (128 * S m) * (S m * y))) with (2 * 512 * 128 * (S m * S m * y)) by lia. replace (512 * 512 * (S m * S m) * y) with (512 * 512 * (S m * S m * y)) by lia. generalize (S m * S m * y). intros z H K. lia.
Qed.
Section Whole.
Variable nd : N -> bool.
Hypothesis nd_ascii : forall x, (x < 128)%N -> (nd x = true <-> digit x).
Lemma lines_bound : forall inp, cnt (snd (mt_lines nd inp 0)) <= calls_bound inp.
Proof. intros inp. apply bound_in. intros a Ha. now apply (@lines_calls nd nd_ascii (length inp) a Ha inp). Qed.
Lemma program_bound : forall inp, cnt (snd (mt_program nd inp 0)) <= calls_bound inp.
Proof. intros inp. apply bound_in. intros a Ha. now apply (@program_calls nd nd_ascii (length inp) a Ha inp). Qed.
End Whole.
