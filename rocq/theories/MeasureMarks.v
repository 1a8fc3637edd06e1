(** Heights in proportion to the characters of a kind that lie ahead: as in MeasureHocon.v, for any kind of characters and with chains of
    operators. *)
From Verif Require Import Base Core Comb Closure Measure MeasureUri.
From Coq Require Import Lia.
Set Implicit Arguments.
Local Open Scope string_scope.
Local Open Scope nat_scope.
Local Open Scope list_scope.

Section Marks.
Variable mark : N -> bool.
Definition ahead (s : list N) : nat := length (filter mark s).
Lemma ahead_tail : forall s k, ahead (skipn k s) <= ahead s.
Proof.
  intros s k. revert s. induction k as [|k IH]; intros [|x s]; try apply le_n. cbn [skipn]. etransitivity; [apply IH|]. unfold ahead. cbn [filter]. destruct (mark x); cbn; lia.
Qed.
Lemma ahead_skip : forall s i k, ahead (skipn (i + k) s) <= ahead (skipn i s).
Proof.
  induction s as [|x s IH]; intros [|i] k; try (cbn; rewrite ?skipn_nil; apply le_n); [apply (ahead_tail (x :: s) k)|]. cbn [skipn plus]. apply IH.
Qed.
Lemma ahead_next : forall s i x t, skipn i s = x :: t -> mark x = true -> S (ahead (skipn (i + 1) s)) = ahead (skipn i s).
Proof.
  induction s as [|y s IH]; intros [|i] x t H O; try discriminate.
  - cbn in H. inv H. unfold ahead. cbn [skipn plus filter]. now rewrite O.
  - cbn [skipn plus] in *. now apply (IH i x t).
Qed.
Definition tall {A} (a b : nat) (g : mparser A) : Prop := forall inp off, hgt (snd (g inp off)) <= a * ahead (skipn off inp) + b.
Lemma t_le : forall A a b c (g : mparser A), tall a b g -> b <= c -> tall a c g.
Proof. intros A a b c g H L inp off. specialize (H inp off). lia. Qed.
Lemma t_flat : forall A a b (g : mparser A), flat b g -> tall a b g.
Proof. intros A a b g H inp off. specialize (H inp off). lia. Qed.
Lemma t_one : forall A B (k : parser N A -> parser N B) a b g, tall a b g -> tall a (S b) (m_one k g).
Proof. intros A B k a b g H inp off. specialize (H inp off). unfold m_one. destruct (g inp off) as [o m]. cbn [snd up hgt] in *. lia. Qed.
Lemma t_two : forall A B C (k : parser N A -> parser N B -> parser N C) a i j g h, tall a i g -> tall a j h -> tall a (S (Nat.max i j)) (m_two k g h).
Proof.
  intros A B C k a i j g h H1 H2 inp off. specialize (H1 inp off). unfold m_two. destruct (g inp off) as [o m]. cbn [snd] in H1.
  destruct o as [x n|e c| |]; cbn [snd up hgt]; try lia. specialize (H2 inp (off + n)). pose proof (ahead_skip inp off n) as M.
  destruct (h inp (off + n)) as [o2 m2]. cbn [snd up both hgt] in *. nia.
Qed.
(** A parser behind a mark has one mark less ahead. *)
Definition eats {A} (g : mparser A) : Prop := forall inp off v n, fst (g inp off) = Success v n -> S (ahead (skipn (off + n) inp)) <= ahead (skipn off inp).
Lemma t_open : forall A B C (k : parser N A -> parser N B -> parser N C) a i j g h, eats g -> tall a i g -> tall a (a + j) h -> tall a (S (Nat.max i j)) (m_two k g h).
Proof.
  intros A B C k a i j g h E H1 H2 inp off. specialize (H1 inp off). specialize (E inp off). unfold m_two. destruct (g inp off) as [o m]. cbn [fst snd] in H1, E.
  destruct o as [x n|e c| |]; cbn [snd up hgt]; try lia. specialize (H2 inp (off + n)). specialize (E x n eq_refl).
  destruct (h inp (off + n)) as [o2 m2]. cbn [snd up both hgt] in *. nia.
Qed.
Lemma t_or : forall A a i j (g h : mparser A), tall a i g -> tall a j h -> tall a (S (Nat.max i j)) (m_or g h).
Proof.
  intros A a i j g h H1 H2 inp off. specialize (H1 inp off). specialize (H2 inp off). unfold m_or. destruct (g inp off) as [o m]. cbn [snd] in H1.
  destruct o as [x n|e [|]| |]; cbn [snd up hgt]; try lia. destruct (h inp off) as [o2 m2]. cbn [snd up both hgt] in *. lia.
Qed.
Lemma t_opt : forall A a j (g : mparser A), tall a j g -> tall a (S (S (S (Nat.max 1 j)))) (m_opt g).
Proof. intros A a j g H. eapply t_le; [apply t_or; [apply t_one, t_one, H|apply t_flat, fl_leaf]|]. lia. Qed.
Definition tall_opt {B} (a b : nat) (s : option (mparser B)) : Prop := match s with Some h => tall a b h | None => True end.
Lemma t_loop : forall A B a b (g : mparser A) (s : option (mparser B)), tall a b g -> tall_opt a b s ->
  forall fuel rend inp cur items all m, hgt (snd (m_loop fuel g s rend inp cur items all m)) <= Nat.max (hgt m) (a * ahead (skipn cur inp) + b).
Proof.
  intros A B a b g s H1 H2. induction fuel as [|fuel IH]; intros rend inp cur items all m; cbn [m_loop]; [cbn; lia|].
  destruct (rep_stop rend (length items)); [cbn; lia|].
  assert (E : forall cur all m, hgt (snd (let '(o, m1) := g inp cur in
      match o with
      | Success v n => m_loop fuel g s rend inp (cur + n) (v :: items) (all + n) (both m m1)
      | Failure _ _ => (RDone (rev items) all, both m m1)
      | Panic => (RPanic, both m m1)
      | Diverge => (RDiverge, both m m1)
      end)) <= Nat.max (hgt m) (a * ahead (skipn cur inp) + b)).
  { intros c a0 m0. specialize (H1 inp c). destruct (g inp c) as [[v n|e d| |] m1]; cbn [fst snd] in *; [|cbn [snd both hgt]; lia..].
    specialize (IH rend inp (c + n) (v :: items) (a0 + n) (both m0 m1)). pose proof (ahead_skip inp c n) as M. cbn [both hgt] in IH. nia. }
  destruct s as [h|]; [|apply E]. specialize (H2 inp cur). destruct (h inp cur) as [[v n|e d| |] m1]; cbn [snd] in H2; [|cbn [snd both hgt]; lia..].
  specialize (E (cur + n) (all + n) (both m m1)). pose proof (ahead_skip inp cur n) as M. cbn [both hgt] in E. nia.
Qed.
Lemma t_rep : forall A B a i j (g : mparser A) r (s : option (mparser B)), tall a i g -> tall_opt a j s -> tall a (S (Nat.max i j)) (m_rep g r s).
Proof.
  intros A B a i j g r s H1 H2 inp off. unfold m_rep.
  assert (K1 : tall a (Nat.max i j) g) by (eapply t_le; [exact H1|lia]).
  assert (K2 : tall_opt a (Nat.max i j) s) by (destruct s; [eapply t_le; [exact H2|lia]|exact I]).
  pose proof (K1 inp off) as E. destruct (g inp off) as [[x n|e c| |] m]; cbn [snd] in E; [|cbn [snd up hgt]; lia..].
  pose proof (@t_loop A B a _ g s K1 K2 (rep_fuel (rg_end r) inp off) (rg_end r) inp (off + n) [x] n m) as L. pose proof (ahead_skip inp off n) as M.
  destruct (m_loop _ g s _ inp (off + n) [x] n m) as [d m']. cbn [snd up hgt] in *. nia.
Qed.
Lemma t_rep0 : forall A a i (g : mparser A) r, tall a i g -> tall a (S i) (m_rep g r (None : option (mparser unit))).
Proof. intros A a i g r H. eapply t_le; [apply (@t_rep A unit a i 0 g r None H I)|]. lia. Qed.
(** Each operator of a chain that is a mark pays for the two closures it adds and for its operand. *)
Lemma t_rest : forall A a i j (g : mparser A) (h : mparser (A -> A -> A)), 2 <= a -> eats h -> tall a i h -> tall a (a + j) g ->
  forall fuel x, tall a (S (S (Nat.max i j))) (m_rest fuel g h x).
Proof.
  intros A a i j g h La E H1 H2. induction fuel as [|fuel IH]; intros x inp off; cbn [m_rest]; [cbn; lia|]. unfold m_or, m_leaf. specialize (H1 inp off). specialize (E inp off).
  destruct (h inp off) as [[f n|e c| |] m]; cbn [fst snd] in *; [|destruct c; cbn [snd up both hgt]; lia|cbn [snd up both hgt]; lia..].
  specialize (H2 inp (off + n)). specialize (E f n eq_refl). destruct (g inp (off + n)) as [[y k|e c| |] m2]; cbn [fst snd] in H2.
  - specialize (IH (f x y) inp (off + n + k)). pose proof (ahead_skip inp (off + n) k) as M. destruct (m_rest fuel g h (f x y) inp (off + n + k)) as [r m3]. cbn [snd] in IH.
    assert (B : hgt m3 <= a * ahead (skipn off inp) + Nat.max i j) by nia. assert (C : hgt m2 <= a * ahead (skipn off inp) + Nat.max i j) by nia.
    destruct (advance_success n (add_commit (negb (n =? 0)) (advance_success k r))) as [v q|e [|]| |]; cbn [snd up both hgt]; lia.
  - assert (C : hgt m2 <= a * ahead (skipn off inp) + Nat.max i j) by nia. destruct (advance_success n (add_commit (negb (n =? 0)) (Failure e c))) as [v q|e' [|]| |]; cbn [snd up both hgt]; lia.
  - assert (C : hgt m2 <= a * ahead (skipn off inp) + Nat.max i j) by nia. cbn [snd up both hgt]. lia.
  - assert (C : hgt m2 <= a * ahead (skipn off inp) + Nat.max i j) by nia. cbn [snd up both hgt]. lia.
Qed.
Lemma t_chain : forall A a i j (g : mparser A) (h : mparser (A -> A -> A)), 2 <= a -> eats h -> tall a i h -> tall a j g ->
  tall a (S (Nat.max j (S (S i)))) (m_chain_left1 g h).
Proof.
  intros A a i j g h La E H1 H2 inp off. unfold m_chain_left1. pose proof (H2 inp off) as G. destruct (g inp off) as [[x n|e c| |] m]; cbn [snd up hgt] in *; [|lia..].
  assert (H3 : tall a (a + (j - a)) g) by (eapply t_le; [exact H2|lia]).
  pose proof (@t_rest A a i (j - a) g h La E H1 H3 (chain_fuel inp (off + n)) x inp (off + n)) as R. pose proof (ahead_skip inp off n) as M.
  destruct (m_rest _ g h x inp (off + n)) as [r m2]. cbn [snd up both hgt] in *. nia.
Qed.

(** ** What consumes a mark *)
Definition sums {A B C} (k : parser N A -> parser N B -> parser N C) : Prop := forall p q inp off v n, k p q inp off = Success v n ->
  exists x y i j, p inp off = Success x i /\ q inp (off + i) = Success y j /\ n = i + j.
Definition same {A B} (k : parser N A -> parser N B) : Prop := forall p inp off v n, k p inp off = Success v n -> exists x, p inp off = Success x n.
Lemma sums_and : forall A B, sums (@p_and N A B).
Proof. intros A B p q inp off v n H. unfold p_and in H. destruct (p inp off) as [x i|e c| |]; try discriminate. destruct (q inp (off + i)) as [y j|e c| |] eqn:E; try discriminate. inv H. now exists x, y, i, j. Qed.
Lemma sums_skip_left : forall A B, sums (@p_skip_left N A B).
Proof. intros A B p q inp off v n H. unfold p_skip_left in H. destruct (p inp off) as [x i|e c| |]; try discriminate. destruct (q inp (off + i)) as [y j|e c| |] eqn:E; try discriminate. inv H. now exists x, v, i, j. Qed.
Lemma sums_skip_right : forall A B, sums (@p_skip_right N A B).
Proof. intros A B p q inp off v n H. unfold p_skip_right in H. destruct (p inp off) as [x i|e c| |]; try discriminate. destruct (q inp (off + i)) as [y j|e c| |] eqn:E; try discriminate. inv H. now exists v, y, i, j. Qed.
Lemma ea_first : forall A B C (k : parser N A -> parser N B -> parser N C) g h, sums k -> eats g -> eats (m_two k g h).
Proof.
  intros A B C k g h K H inp off v n E. specialize (H inp off). unfold m_two in E. destruct (g inp off) as [o m]. cbn [fst] in H. destruct o as [x i|e c| |].
  - destruct (h inp (off + i)) as [o2 m2]. cbn [fst] in E. apply K in E. destruct E as (x' & y & i' & j & E1 & E2 & ->). inv E1. specialize (H x' i' eq_refl). pose proof (ahead_skip inp (off + i') j). rewrite Nat.add_assoc. lia.
  - cbn [fst] in E. apply K in E. destruct E as (x' & y & i' & j & E1 & _). discriminate.
  - cbn [fst] in E. apply K in E. destruct E as (x' & y & i' & j & E1 & _). discriminate.
  - cbn [fst] in E. apply K in E. destruct E as (x' & y & i' & j & E1 & _). discriminate.
Qed.
Lemma ea_second : forall A B C (k : parser N A -> parser N B -> parser N C) g h, sums k -> eats h -> eats (m_two k g h).
Proof.
  intros A B C k g h K H inp off v n E. unfold m_two in E. destruct (g inp off) as [o m]. destruct o as [x i|e c| |].
  - specialize (H inp (off + i)). destruct (h inp (off + i)) as [o2 m2]. cbn [fst] in E, H. apply K in E. destruct E as (x' & y & i' & j & E1 & E2 & ->). inv E1. subst. specialize (H y j eq_refl).
    pose proof (ahead_skip inp off i'). rewrite Nat.add_assoc. lia.
  - cbn [fst] in E. apply K in E. destruct E as (x' & y & i' & j & E1 & _). discriminate.
  - cbn [fst] in E. apply K in E. destruct E as (x' & y & i' & j & E1 & _). discriminate.
  - cbn [fst] in E. apply K in E. destruct E as (x' & y & i' & j & E1 & _). discriminate.
Qed.
Lemma ea_one : forall A B (k : parser N A -> parser N B) g, same k -> eats g -> eats (m_one k g).
Proof. intros A B k g K H inp off v n E. specialize (H inp off). unfold m_one in E. destruct (g inp off) as [o m]. cbn [fst] in *. apply K in E. destruct E as [x ->]. now apply (H x). Qed.
Lemma ea_or : forall A (g h : mparser A), eats g -> eats h -> eats (m_or g h).
Proof.
  intros A g h H1 H2 inp off v n E. specialize (H1 inp off). specialize (H2 inp off). unfold m_or in E. destruct (g inp off) as [o m]. cbn [fst] in *.
  destruct o as [x i|e [|]| |]; cbn [fst] in E; try discriminate; [inv E; now apply (H1 v)|]. destruct (h inp off) as [o2 m2]. cbn [fst] in *. subst. now apply (H2 v).
Qed.
Lemma same_map : forall A B (f : A -> B), same (fun p : parser N A => p_map p f).
Proof. intros A B f p inp off v n H. unfold p_map in H. destruct (p inp off) as [x i|e c| |]; try discriminate. inv H. now exists x. Qed.
Lemma same_map_panic : forall A B (f : A -> option B), same (fun p : parser N A => p_map_panic p f).
Proof. intros A B f p inp off v n H. unfold p_map_panic in H. destruct (p inp off) as [x i|e c| |]; try discriminate. destruct (f x); inv H. now exists x. Qed.
Lemma same_attempt : forall A, same (@p_attempt N A).
Proof. intros A p inp off v n H. unfold p_attempt, with_uncommitted in H. destruct (p inp off) as [x i|e c| |]; try discriminate; [|destruct c; discriminate]. inv H. now exists v. Qed.
Lemma same_name : forall A nm, same (fun p : parser N A => p_name p nm).
Proof. intros A nm p inp off v n H. unfold p_name in H. destruct (p inp off) as [x i|e c| |]; try discriminate; [|repeat match type of H with context [match ?z with _ => _ end] => destruct z; try discriminate end]. inv H. now exists v. Qed.
Lemma ea_leaf : forall A (p : parser N A) x, mark x = true -> (forall inp off v n, p inp off = Success v n -> 1 <= n /\ exists t, skipn off inp = x :: t) -> eats (m_leaf p).
Proof.
  intros A p x M H inp off v n E. apply H in E. destruct E as (L & t & E). pose proof (ahead_next _ _ E M) as K. pose proof (ahead_skip inp (off + 1) (n - 1)) as S1.
  replace (off + 1 + (n - 1)) with (off + n) in S1 by lia. lia.
Qed.
Lemma ea_elm_ref : forall c, mark c = true -> eats (m_elm_ref c).
Proof.
  intros c M. apply ea_leaf with (x := c); [exact M|]. intros inp off v n F. unfold p_elm_pred_ref, ps_input, slice_from in F. destruct (off <=? length inp); [|discriminate].
  destruct (skipn off inp) as [|x t]; [discriminate|]. destruct (x =? c)%N eqn:Q; [|discriminate]. inv F. apply N.eqb_eq in Q. subst v. split; [apply le_n|]. now exists t.
Qed.
Lemma tag_head : forall c s inp off v n, p_tag (c :: s) inp off = Success v n -> 1 <= n /\ exists t, skipn off inp = c :: t.
Proof.
  intros c s inp off v n F. unfold p_tag, p_tag_by, ps_input, slice_from in F. destruct (off <=? length inp); [|discriminate]. cbn [tag_loop] in F.
  destruct (skipn off inp) as [|x t] eqn:G; [discriminate|]. destruct (c =? x)%N eqn:Q; [|discriminate]. cbn [negb] in F. apply N.eqb_eq in Q. subst x. split; [|now exists t].
  assert (K : forall whole input s rest i v n, tag_loop N.eqb whole input off s rest i = Success v n -> i <= n).
  { clear. intros whole input s. induction s as [|c s IH]; intros rest i v n H; cbn [tag_loop] in H; [inv H; apply le_n|]. destruct rest as [|x rest]; [discriminate|].
    destruct (negb (c =? x)%N); [discriminate|]. apply IH in H. lia. }
  now apply K in F.
Qed.
Lemma ea_tag : forall c s, mark c = true -> eats (m_tag (c :: s)).
Proof. intros c s M. apply ea_leaf with (x := c); [exact M|]. intros inp off v n. apply tag_head. Qed.
End Marks.
