(** How many closures a run of the JSON examples calls: at most so many for every element of the text. *)
From Verif Require Import Base Core Comb Closure RepFacts LitFacts Hoare Runs Text Agree Json JsonSpec JsonFacts Measure MeasureJson.
Set Implicit Arguments.
Local Open Scope string_scope.
Local Open Scope nat_scope.
Local Open Scope list_scope.

(** The elements a run is charged for: those it consumed, or all that were left if it returned nothing. *)
Definition used {A} (o : outcome N A) (inp : list N) (off : nat) : nat := match o with Success _ n => n | _ => length inp - off end.
Definition lin {A} (n a b : nat) (g : mparser A) : Prop := forall inp off, off <= length inp -> length inp - off < n ->
  cnt (snd (g inp off)) <= a * used (fst (g inp off)) inp off + b.
(** What a run that returns a value consumed lies inside of the text. *)
Definition inside {A} (n j : nat) (g : mparser A) : Prop := forall inp off v k, off <= length inp -> length inp - off < n ->
  fst (g inp off) = Success v k -> off + k <= length inp /\ j <= k.
Definition small {A} (c : nat) (g : mparser A) : Prop := forall inp off, cnt (snd (g inp off)) <= c.
(** At a text that does not begin with an element of the class [st] the run fails, uncommitted, after at most [c] calls. *)
Definition off_at {A} (st : N -> bool) (c : nat) (g : mparser A) : Prop := forall inp off, off <= length inp -> hd_not st (skipn off inp) ->
  (exists e, fst (g inp off) = Failure e false) /\ cnt (snd (g inp off)) <= c.
(** A run that fails calls at most [c] closures. *)
Definition cheap {A} (c : nat) (g : mparser A) : Prop := forall inp off e b, fst (g inp off) = Failure e b -> cnt (snd (g inp off)) <= c.
Definition fails {A} (o : outcome N A) : Prop := match o with Success _ _ => False | _ => True end.

Lemma in_hoare : forall A n j (g : mparser A) p Q, erases g p -> hoare p Q -> (forall v s, Q v s -> j <= length s) -> inside n j g.
Proof.
  intros A n j g p Q E H K inp off v k L1 _ S0. rewrite (E inp off) in S0. destruct (h_success H L1 S0) as [B1 B2]. split; [exact B1|].
  apply K in B2. rewrite firstn_length, skipn_length in B2. lia.
Qed.
Lemma in_takes : forall A n (g : mparser A) p P, erases g p -> takes n p P -> inside n 0 g.
Proof. intros A n g p P E T inp off v k L1 L2 S0. rewrite (E inp off) in S0. destruct (T inp off v k L1 L2 S0) as [B1 _]. split; [exact B1|lia]. Qed.
Lemma in_le : forall A n i j (g : mparser A), inside n i g -> j <= i -> inside n j g.
Proof. intros A n i j g H L inp off v k L1 L2 S0. destruct (H inp off v k L1 L2 S0). split; [assumption|lia]. Qed.
Lemma oa_rej : forall A st c (g : mparser A) p, erases g p -> (forall l, hd_not st l -> rej p l false) -> small c g -> off_at st c g.
Proof.
  intros A st c g p E R S0 inp off L H. split; [|apply S0]. rewrite (E inp off). destruct (R _ H (firstn off inp)) as [e R1].
  rewrite firstn_skipn, firstn_length, Nat.min_l in R1 by exact L. now exists e.
Qed.

Lemma sm_le : forall A c d (g : mparser A), small c g -> c <= d -> small d g.
Proof. intros A c d g H L inp off. specialize (H inp off). lia. Qed.
Lemma sm_leaf : forall A (p : parser N A), small 1 (m_leaf p).
Proof. intros A p inp off. apply le_n. Qed.
Lemma sm_one : forall A B (k : parser N A -> parser N B) c g, small c g -> small (S c) (m_one k g).
Proof. intros A B k c g H inp off. specialize (H inp off). unfold m_one. destruct (g inp off). cbn in *. lia. Qed.
Lemma sm_two : forall A B C (k : parser N A -> parser N B -> parser N C) c d g h, small c g -> small d h -> small (S (c + d)) (m_two k g h).
Proof.
  intros A B C k c d g h H1 H2 inp off. specialize (H1 inp off). unfold m_two. destruct (g inp off) as [[x n|e b| |] m]; cbn in *; try lia.
  specialize (H2 inp (off + n)). destruct (h inp (off + n)). cbn in *. lia.
Qed.
Lemma sm_or : forall A c d (g h : mparser A), small c g -> small d h -> small (S (c + d)) (m_or g h).
Proof.
  intros A c d g h H1 H2 inp off. specialize (H1 inp off). specialize (H2 inp off). unfold m_or. destruct (g inp off) as [[x n|e [|]| |] m]; cbn in *; try lia.
  destruct (h inp off). cbn in *. lia.
Qed.
Lemma sm_opt : forall A c (g : mparser A), small c g -> small (c + 4) (m_opt g).
Proof. intros A c g H. eapply sm_le; [apply sm_or; [apply sm_one, sm_one, H|apply sm_leaf]|]. lia. Qed.
Lemma sm_count : forall A c (g : mparser A) n, small c g -> small (S (S n * c)) (m_count g n).
Proof.
  intros A c g n H inp off. unfold m_count, m_rep. pose proof (H inp off) as H0. destruct (g inp off) as [[x k|e b| |] m]; cbn [fst snd] in *; try (cbn; lia).
  assert (G : forall fuel cur items all m, 1 <= length items -> cnt (snd (m_loop fuel g (None : option (mparser unit)) (BIncluded n) inp cur items all m)) <= cnt m + (S n - length items) * c).
  { clear H0. induction fuel as [|fuel IH]; intros cur items all m0 L; cbn [m_loop]; [cbn; lia|]. cbn [rep_stop]. destruct (n <=? length items) eqn:E; [cbn; lia|]. apply Nat.leb_gt in E.
    pose proof (H inp cur) as H0. destruct (g inp cur) as [[y j|e b| |] m1]; cbn [fst snd both cnt] in *; [|destruct (S n - length items) eqn:F; [lia|]; lia..].
    specialize (IH (cur + j) (y :: items) (all + j) (both m0 m1)). cbn [length both cnt] in IH. specialize (IH ltac:(lia)).
    replace (S n - length items) with (S (S n - S (length items))) by lia. lia. }
  specialize (G (rep_fuel (rg_end (rg_in n n)) inp off) (off + k) [x] k m). cbn [length rg_end rg_in] in *. specialize (G ltac:(lia)).
  destruct (m_loop _ g _ _ inp (off + k) [x] k m) as [d m']. cbn [fst snd up cnt] in *. replace (S n - 1) with n in G by lia. lia.
Qed.
Lemma li_small : forall A n a c (g : mparser A), small c g -> lin n a c g.
Proof. intros A n a c g H inp off _ _. specialize (H inp off). lia. Qed.
Lemma li_le : forall A n a b a' b' (g : mparser A), lin n a b g -> a <= a' -> b <= b' -> lin n a' b' g.
Proof. intros A n a b a' b' g H L1 L2 inp off H1 H2. specialize (H inp off H1 H2). etransitivity; [exact H|]. apply Nat.add_le_mono; [|exact L2]. now apply Nat.mul_le_mono_r. Qed.
Lemma li_one : forall A B (k : parser N A -> parser N B) n a b g j, (forall o inp off v n, k (fun _ _ => o) inp off = Success v n -> exists x, o = Success x n) ->
  inside n j g -> lin n a b g -> lin n a (S b) (m_one k g).
Proof.
  intros A B k n a b g j K I H inp off L1 L2. specialize (H inp off L1 L2). pose proof (I inp off) as I0. unfold m_one. destruct (g inp off) as [o m]. cbn [fst snd up cnt] in *.
  specialize (K o inp off). unfold used at 1. destruct (k (fun _ _ => o) inp off) as [v d|e c| |].
  - destruct (K v d eq_refl) as [x ->]. cbn [used] in H. lia.
  - destruct o as [x d|e' c'| |]; cbn [used] in H; try lia. destruct (I0 x d L1 L2 eq_refl). assert (a * d <= a * (length inp - off)) by (apply Nat.mul_le_mono_l; lia). lia.
  - destruct o as [x d|e' c'| |]; cbn [used] in H; try lia. destruct (I0 x d L1 L2 eq_refl). assert (a * d <= a * (length inp - off)) by (apply Nat.mul_le_mono_l; lia). lia.
  - destruct o as [x d|e' c'| |]; cbn [used] in H; try lia. destruct (I0 x d L1 L2 eq_refl). assert (a * d <= a * (length inp - off)) by (apply Nat.mul_le_mono_l; lia). lia.
Qed.
Lemma li_two : forall A B C (k : parser N A -> parser N B -> parser N C) n a b c g h j i,
  (forall o o2 inp off v n, k (fun _ _ => o) (fun _ _ => o2) inp off = Success v n -> exists x y n1 n2, o = Success x n1 /\ o2 = Success y n2 /\ n = n1 + n2) ->
  inside n j g -> lin n a b g -> inside n i h -> lin n a c h -> lin n a (S (b + c)) (m_two k g h).
Proof.
  intros A B C k n a b c g h j i K I H1 I2 H2 inp off L1 L2. specialize (H1 inp off L1 L2). pose proof (I inp off) as I0. unfold m_two. destruct (g inp off) as [o m]. cbn [fst snd] in *.
  assert (FZ : fails o -> S (cnt m) <= a * used (k (fun _ _ => o) p_diverge inp off) inp off + S (b + c)).
  { intros Fo. pose proof (K o Diverge inp off) as K0. change (k (fun _ _ => o) p_diverge inp off) with (k (fun _ _ => o) (fun _ _ => Diverge) inp off).
    assert (U : used o inp off = length inp - off) by (destruct o; [destruct Fo|reflexivity..]). rewrite U in H1.
    destruct (k (fun _ _ => o) (fun _ _ => Diverge) inp off) as [v d|e1 c1| |]; [destruct (K0 v d eq_refl) as (x & y & n1 & n2 & E & E2 & _); discriminate|cbn [used]; lia..]. }
  destruct o as [x d|e b0| |]; cbn [fst snd up cnt]; [clear FZ|exact (FZ Logic.I)..].
  destruct (I0 x d L1 L2 eq_refl) as [B1 _]. specialize (H2 inp (off + d) B1 ltac:(lia)). specialize (I2 inp (off + d)). destruct (h inp (off + d)) as [o2 m2]. cbn [fst snd up both cnt] in *.
  pose proof (K (Success x d) o2 inp off) as K0. unfold used at 1. destruct (k (fun _ _ => Success x d) (fun _ _ => o2) inp off) as [v d2|e1 c1| |].
  { destruct (K0 v d2 eq_refl) as (x1 & y & n1 & n2 & E1 & -> & ->). inv E1. cbn [used] in *. lia. }
  all: assert (U : used o2 inp (off + d) <= length inp - off - d) by (destruct o2 as [y d2|e2 c2| |]; cbn [used]; [destruct (I2 y d2 B1 ltac:(lia) eq_refl)|..]; lia).
  all: cbn [used] in *; assert (a * (d + used o2 inp (off + d)) <= a * (length inp - off)) by (apply Nat.mul_le_mono_l; lia); lia.
Qed.
(** The runs of the first alternative that fail are cheap, or those of the second are. *)
Lemma li_or : forall A n a b c d (g h : mparser A), lin n a b g -> lin n a c h ->
  (forall inp off e, off <= length inp -> length inp - off < n -> fst (g inp off) = Failure e false -> cnt (snd (g inp off)) <= d \/ fails (fst (h inp off)) /\ cnt (snd (h inp off)) <= d) ->
  lin n a (S (b + c + d)) (m_or g h).
Proof.
  intros A n a b c d g h H1 H2 K inp off L1 L2. specialize (H1 inp off L1 L2). specialize (H2 inp off L1 L2). specialize (K inp off). unfold m_or. destruct (g inp off) as [o m]. cbn [fst snd] in *.
  destruct o as [x k|e [|]| |]; cbn [fst snd up cnt]; try lia. specialize (K e L1 L2 eq_refl). destruct (h inp off) as [o2 m2]. cbn [fst snd up both cnt] in *.
  destruct K as [K|[K1 K2]]; [lia|]. destruct o2; [destruct K1|cbn [used] in *; lia..].
Qed.
Lemma oa_le : forall A st st' c c' (g : mparser A), off_at st c g -> (forall x, st x = true -> st' x = true) -> c <= c' -> off_at st' c' g.
Proof.
  intros A st st' c c' g H K L inp off L1 L2. destruct (H inp off L1) as [H1 H2]; [|split; [exact H1|lia]]. destruct (skipn off inp) as [|x l]; [exact I|]. cbn in *.
  destruct (st x) eqn:E; [|reflexivity]. apply K in E. congruence.
Qed.
Lemma oa_one : forall A B (k : parser N A -> parser N B) st c g, (forall e b inp off, exists e', k (fun _ _ => Failure e b) inp off = Failure e' b) ->
  off_at st c g -> off_at st (S c) (m_one k g).
Proof.
  intros A B k st c g K H inp off L1 L2. destruct (H inp off L1 L2) as [[e H1] H2]. unfold m_one. destruct (g inp off) as [o m]. cbn [fst snd] in *. subst o. cbn [up cnt].
  split; [apply K|lia].
Qed.
Lemma oa_two : forall A B C (k : parser N A -> parser N B -> parser N C) st c g h, (forall e b q inp off, exists e', k (fun _ _ => Failure e b) q inp off = Failure e' b) ->
  off_at st c g -> off_at st (S c) (m_two k g h).
Proof.
  intros A B C k st c g h K H inp off L1 L2. destruct (H inp off L1 L2) as [[e H1] H2]. unfold m_two. destruct (g inp off) as [o m]. cbn [fst snd] in *. subst o. cbn [fst snd up cnt].
  split; [apply K|lia].
Qed.
Lemma oa_or : forall A st c d (g h : mparser A), off_at st c g -> off_at st d h -> off_at st (S (c + d)) (m_or g h).
Proof.
  intros A st c d g h H1 H2 inp off L1 L2. destruct (H1 inp off L1 L2) as [[e E1] C1]. destruct (H2 inp off L1 L2) as [[e2 E2] C2]. unfold m_or. destruct (g inp off) as [o m]. cbn [fst snd] in *. subst o.
  destruct (h inp off) as [o2 m2]. cbn [fst snd up both cnt] in *. subst o2. split; [now exists e2|lia].
Qed.
(** An optional parser that finds nothing, then one that fails. *)
Lemma oa_opt_and : forall A B st c d (g : mparser A) (h : mparser B), off_at st c g -> off_at st d h -> off_at st (c + d + 5) (m_and (m_opt g) h).
Proof.
  intros A B st c d g h H1 H2 inp off L1 L2. destruct (H1 inp off L1 L2) as [[e E1] C1]. destruct (H2 inp off L1 L2) as [[e2 E2] C2].
  unfold m_and, m_two, m_opt, m_or, m_map, m_attempt, m_one, m_leaf. destruct (g inp off) as [o m]. cbn [fst snd] in *. subst o. cbn. rewrite Nat.add_0_r.
  destruct (h inp off) as [o2 m2]. cbn [fst snd up both cnt] in *. subst o2. cbn. split; [now exists e2|lia].
Qed.
Lemma oa_many1 : forall A st c (g : mparser A), off_at st c g -> off_at st (S c) (m_many1 g).
Proof.
  intros A st c g H inp off L1 L2. destruct (H inp off L1 L2) as [[e E1] C1]. unfold m_many1, m_rep. destruct (g inp off) as [o m]. cbn [fst snd] in *. subst o. cbn.
  rewrite Nat.add_0_r, ps_input_ok by exact L1. split; [now eexists|lia].
Qed.
Lemma ch_small : forall A c (g : mparser A), small c g -> cheap c g.
Proof. intros A c g H inp off e b _. apply H. Qed.
Lemma ch_or : forall A c d (g h : mparser A), cheap c g -> cheap d h -> cheap (S (c + d)) (m_or g h).
Proof.
  intros A c d g h H1 H2 inp off e b E. unfold m_or in *. specialize (H1 inp off). specialize (H2 inp off). destruct (g inp off) as [[x k|e0 [|]| |] m]; cbn [fst snd up cnt] in *; try discriminate.
  - specialize (H1 e0 _ eq_refl). lia.
  - specialize (H1 e0 _ eq_refl). destruct (h inp off) as [o2 m2]. cbn [fst snd up both cnt] in *. specialize (H2 e b E). lia.
Qed.
Lemma ch_two : forall A B C (k : parser N A -> parser N B -> parser N C) c d g h,
  (forall x n1 o inp off e b, k (fun _ _ => Success x n1) (fun _ _ => o) inp off = Failure e b -> exists e' b', o = Failure e' b') ->
  small c g -> cheap d h -> cheap (S (c + d)) (m_two k g h).
Proof.
  intros A B C k c d g h K H1 H2 inp off e b E. unfold m_two in *. specialize (H1 inp off). destruct (g inp off) as [[x n|e0 b0| |] m]; cbn [fst snd up cnt] in *; try lia.
  specialize (H2 inp (off + n)). destruct (h inp (off + n)) as [o2 m2]. cbn [fst snd up both cnt] in *. apply K in E. destruct E as (e' & b' & ->). specialize (H2 e' b' eq_refl). lia.
Qed.
Lemma ch_many0 : forall A (g : mparser A), cheap 0 (m_many0 g).
Proof.
  intros A g inp off e b E. unfold m_many0, m_rep in E. exfalso. destruct (g inp off) as [[x k|e0 b0| |] m]; try discriminate.
  destruct (m_loop _ g None _ inp (off + k) [x] k m) as [[l k2| |] m2]; discriminate.
Qed.
Lemma loop_len : forall A B (g : mparser A) (s : option (mparser B)) fuel rend inp cur items all m l k, fst (m_loop fuel g s rend inp cur items all m) = RDone l k -> length items <= length l.
Proof.
  intros A B g s. induction fuel as [|fuel IH]; intros rend inp cur items all m l k; cbn [m_loop]; [discriminate|].
  assert (R : forall j, RDone (rev items) j = RDone l k -> length items <= length l) by (intros j E; inv E; now rewrite rev_length).
  destruct (rep_stop rend (length items)); [apply R|].
  assert (E : forall c a m0, fst (let '(o, m1) := g inp c in
      match o with
      | Success v n => m_loop fuel g s rend inp (c + n) (v :: items) (a + n) (both m0 m1)
      | Failure _ _ => (RDone (rev items) a, both m0 m1)
      | Panic => (RPanic, both m0 m1)
      | Diverge => (RDiverge, both m0 m1)
      end) = RDone l k -> length items <= length l).
  { intros c a m0. destruct (g inp c) as [[v n|e b| |] m1]; [|apply R|discriminate..]. intros E. apply IH in E. cbn [length] in E. lia. }
  destruct s as [h|]; [|apply E]. destruct (h inp cur) as [[v n|e b| |] m1]; [apply E|apply R|discriminate..].
Qed.
Lemma ch_many1 : forall A c (g : mparser A), small c g -> cheap (S c) (m_many1 g).
Proof.
  intros A c g H inp off e b E. unfold m_many1, m_rep in *. specialize (H inp off). destruct (g inp off) as [[x k|e0 b0| |] m]; cbn [fst snd up cnt] in *; try lia; try discriminate.
  pose proof (@loop_len A unit g None (rep_fuel (rg_end (rg_from 1)) inp off) (rg_end (rg_from 1)) inp (off + k) [x] k m) as L.
  destruct (m_loop _ g None _ inp (off + k) [x] k m) as [[l k2| |] m2]; cbn [fst snd] in *; try discriminate. specialize (L l k2 eq_refl). cbn [length] in L.
  exfalso. revert E. cbn [rep_finish rg_from rg_start]. destruct (length l <? 1) eqn:Q; [apply Nat.ltb_lt in Q; lia|discriminate].
Qed.
Lemma li_opt : forall A n a b c (g : mparser A) j, inside n j g -> lin n a b g -> cheap c g -> lin n a (b + c + 4) (m_opt g).
Proof.
  intros A n a b c g j I H K inp off L1 L2. specialize (H inp off L1 L2). specialize (K inp off). unfold m_opt, m_or, m_map, m_attempt, m_one, m_leaf. destruct (g inp off) as [o m]. cbn [fst snd] in *.
  destruct o as [x k|e [|]| |]; try (specialize (K e _ eq_refl)); cbv [p_map p_attempt p_successful with_uncommitted up both]; cbn [fst snd cnt used] in *; lia.
Qed.

(** ** Repetitions *)
(** The items and separators cost [A] for every element they consume; where the repetition ends, what failed there and what is called
    next ([close]) cost [A] for the elements [close] uses. *)
Section Loop.
Variables (X Y Z : Type) (n : nat) (A B C As : nat).
Variable g : mparser X.
Variable s : option (mparser Y).
Variable close : mparser Z.
Hypothesis Hg : forall inp off v k, off <= length inp -> length inp - off < n -> fst (g inp off) = Success v k -> off + k <= length inp /\ 1 <= k /\ cnt (snd (g inp off)) <= A * k + B.
Hypothesis Hs : forall h inp off v k, s = Some h -> off <= length inp -> length inp - off < n -> fst (h inp off) = Success v k -> off + k <= length inp /\ 1 <= k /\ cnt (snd (h inp off)) <= As * k.
Hypothesis HB : match s with Some _ => As + B <= A | None => B = 0 end.
Hypothesis Hgc : forall inp off, off <= length inp -> length inp - off < n -> fails (fst (g inp off)) -> cnt (snd (g inp off)) + cnt (snd (close inp off)) <= A * used (fst (close inp off)) inp off + C.
Hypothesis Hsc : forall h inp off, s = Some h -> off <= length inp -> length inp - off < n -> fails (fst (h inp off)) -> cnt (snd (h inp off)) + cnt (snd (close inp off)) <= A * used (fst (close inp off)) inp off + C.
(** The cost of a loop that began at [cur]. *)
Definition loop_ok (inp : list N) (cur all base : nat) (r : rep_result X * meas) : Prop :=
  match fst r with
  | RDone _ k => all <= k /\ cur + (k - all) <= length inp /\
      cnt (snd r) + cnt (snd (close inp (cur + (k - all)))) <= base + A * (k - all) + A * used (fst (close inp (cur + (k - all)))) inp (cur + (k - all)) + C
  | _ => cnt (snd r) <= base + A * (length inp - cur) + C
  end.
Hypothesis Hclose : forall inp off v k, off <= length inp -> length inp - off < n -> fst (close inp off) = Success v k -> off + k <= length inp.
Lemma used_le : forall inp off, off <= length inp -> length inp - off < n -> used (fst (close inp off)) inp off <= length inp - off.
Proof. intros inp off L1 L2. pose proof (@Hclose inp off) as H. destruct (fst (close inp off)) as [v k|e c| |]; cbn [used]; try lia. specialize (H v k L1 L2 eq_refl). lia. Qed.
Lemma li_loop : forall fuel inp cur items all m, cur <= length inp -> length inp - cur < n ->
  loop_ok inp cur all (cnt m) (m_loop fuel g s BUnbounded inp cur items all m).
Proof.
  induction fuel as [|fuel IH]; intros inp cur items all m L1 L2; cbn [m_loop]; [unfold loop_ok; cbn [fst snd]; nia|]. cbn [rep_stop].
  assert (E : forall c0 d m0, cur + d = c0 -> c0 <= length inp -> cnt m0 <= cnt m + As * d -> match s with Some _ => 1 <= d | None => d = 0 end ->
    loop_ok inp cur all (cnt m) (let '(o, m1) := g inp c0 in
      match o with
      | Success v k => m_loop fuel g s BUnbounded inp (c0 + k) (v :: items) (all + d + k) (both m0 m1)
      | Failure _ _ => (RDone (rev items) (all + d), both m0 m1)
      | Panic => (RPanic, both m0 m1)
      | Diverge => (RDiverge, both m0 m1)
      end)).
  { intros c0 d m0 <- Lc Lm Ld. pose proof (@Hg inp (cur + d)) as G1. pose proof (@Hgc inp (cur + d)) as G2. pose proof (@used_le inp (cur + d) Lc ltac:(lia)) as U.
    assert (AD : As * d <= A * d /\ As * d + B <= A * d \/ d = 0 /\ B = 0). { pose proof HB as HB1. revert Ld HB1. destruct s as [h|]; intros Ld HB1; [left|right; lia]. assert ((As + B) * d <= A * d) by now apply Nat.mul_le_mono_r. split; [nia|]. nia. }
    assert (AD' : As * d <= A * d) by (destruct AD as [[AD _]|[-> _]]; lia).
    destruct (g inp (cur + d)) as [o m1]. cbn [fst snd] in *. destruct o as [v k|e b| |].
    - destruct (G1 v k Lc ltac:(lia) eq_refl) as (B1 & B2 & B3). specialize (IH inp (cur + d + k) (v :: items) (all + d + k) (both m0 m1) B1 ltac:(lia)).
      assert (AB : As * d + B <= A * d) by (destruct AD as [[_ AD]|[-> ->]]; lia).
      unfold loop_ok in *. destruct (m_loop fuel g s BUnbounded inp (cur + d + k) (v :: items) (all + d + k) (both m0 m1)) as [r m2]. cbn [fst snd both cnt] in *.
      destruct r as [l k2| |].
      + destruct IH as (I1 & I2 & I3). replace (cur + d + k + (k2 - (all + d + k))) with (cur + (k2 - all)) in * by lia. split; [lia|]. split; [lia|].
        replace (k2 - all) with (d + k + (k2 - (all + d + k))) at 2 by lia. lia.
      + assert (A * (length inp - cur) = A * d + A * k + A * (length inp - (cur + d + k))) by (rewrite <- !Nat.mul_add_distr_l; f_equal; lia). lia.
      + assert (A * (length inp - cur) = A * d + A * k + A * (length inp - (cur + d + k))) by (rewrite <- !Nat.mul_add_distr_l; f_equal; lia). lia.
    - specialize (G2 Lc ltac:(lia) Logic.I). unfold loop_ok. cbn [fst snd both cnt]. replace (all + d - all) with d by lia. split; [lia|]. split; [exact Lc|]. lia.
    - specialize (G2 Lc ltac:(lia) Logic.I). unfold loop_ok. cbn [fst snd both cnt].
      assert (A * d + A * used (fst (close inp (cur + d))) inp (cur + d) <= A * (length inp - cur)) by (rewrite <- Nat.mul_add_distr_l; apply Nat.mul_le_mono_l; lia). lia.
    - specialize (G2 Lc ltac:(lia) Logic.I). unfold loop_ok. cbn [fst snd both cnt].
      assert (A * d + A * used (fst (close inp (cur + d))) inp (cur + d) <= A * (length inp - cur)) by (rewrite <- Nat.mul_add_distr_l; apply Nat.mul_le_mono_l; lia). lia. }
  destruct s as [h|] eqn:Es.
  - pose proof (fun v k => @Hs h inp cur v k eq_refl) as G1. pose proof (@Hsc h inp cur eq_refl) as G2. pose proof (@used_le inp cur L1 L2) as U.
    destruct (h inp cur) as [o m1]. cbn [fst snd] in *. destruct o as [v k|e b| |].
    + destruct (G1 v k L1 L2 eq_refl) as (B1 & B2 & B3). apply E; [reflexivity|exact B1|cbn; lia|lia].
    + specialize (G2 L1 L2 Logic.I). unfold loop_ok. cbn [fst snd both cnt]. rewrite Nat.sub_diag, !Nat.add_0_r, Nat.mul_0_r. split; [lia|]. split; [exact L1|lia].
    + specialize (G2 L1 L2 Logic.I). unfold loop_ok. cbn [fst snd both cnt]. assert (A * used (fst (close inp cur)) inp cur <= A * (length inp - cur)) by (apply Nat.mul_le_mono_l; lia). lia.
    + specialize (G2 L1 L2 Logic.I). unfold loop_ok. cbn [fst snd both cnt]. assert (A * used (fst (close inp cur)) inp cur <= A * (length inp - cur)) by (apply Nat.mul_le_mono_l; lia). lia.
  - specialize (E cur 0 m). rewrite !Nat.add_0_r in E. apply E; [lia|exact L1|lia|reflexivity].
Qed.
Lemma li_rep : forall mn inp off, off <= length inp -> length inp - off < n ->
  let r := m_rep g (rg_from mn) s inp off in
  match fst r with
  | Success l k => off + k <= length inp /\ cnt (snd r) + cnt (snd (close inp (off + k))) <= S B + A * k + A * used (fst (close inp (off + k))) inp (off + k) + C
  | _ => cnt (snd r) <= S B + A * (length inp - off) + C
  end.
Proof.
  intros mn inp off L1 L2. unfold m_rep. pose proof (@Hg inp off) as G1. pose proof (@Hgc inp off) as G2. pose proof (@used_le inp off L1 L2) as U.
  assert (UA : A * used (fst (close inp off)) inp off <= A * (length inp - off)) by (apply Nat.mul_le_mono_l; lia).
  assert (FIN : forall l k m', off + k <= length inp -> cnt m' + cnt (snd (close inp (off + k))) <= B + A * k + A * used (fst (close inp (off + k))) inp (off + k) + C ->
    match rep_finish (rg_start (rg_from mn)) inp off (RDone (l : list X) k) with
    | Success _ k => off + k <= length inp /\ S (cnt m') + cnt (snd (close inp (off + k))) <= S B + A * k + A * used (fst (close inp (off + k))) inp (off + k) + C
    | _ => S (cnt m') <= S B + A * (length inp - off) + C
    end).
  { intros l k m' Lk H. pose proof (@used_le inp (off + k) Lk ltac:(lia)) as Uk. cbn [rep_finish rg_from rg_start]. destruct (length l <? mn); [|split; [exact Lk|lia]].
    assert (A * k + A * used (fst (close inp (off + k))) inp (off + k) <= A * (length inp - off)) by (rewrite <- Nat.mul_add_distr_l; apply Nat.mul_le_mono_l; lia).
    destruct (ps_input inp (off + k)); cbn; lia. }
  destruct (g inp off) as [o m]. cbn [fst snd] in *. destruct o as [v k|e b| |].
  - destruct (G1 v k L1 L2 eq_refl) as (B1 & B2 & B3). cbn [rg_from rg_end]. pose proof (@li_loop (rep_fuel BUnbounded inp off) inp (off + k) [v] k m B1 ltac:(lia)) as G.
    destruct (m_loop (rep_fuel BUnbounded inp off) g s BUnbounded inp (off + k) [v] k m) as [d m']. unfold loop_ok in G. cbn [fst snd up cnt] in *. destruct d as [l k2| |].
    + destruct G as (I1 & I2 & I3). replace (off + k + (k2 - k)) with (off + k2) in * by lia. apply FIN; [lia|].
      assert (A * k2 = A * k + A * (k2 - k)) by (rewrite <- Nat.mul_add_distr_l; f_equal; lia). lia.
    + cbn. assert (A * (length inp - off) = A * k + A * (length inp - (off + k))) by (rewrite <- !Nat.mul_add_distr_l; f_equal; lia). lia.
    + cbn. assert (A * (length inp - off) = A * k + A * (length inp - (off + k))) by (rewrite <- !Nat.mul_add_distr_l; f_equal; lia). lia.
  - specialize (G2 L1 L2 Logic.I). cbn [fst snd up cnt]. apply FIN; [lia|]. rewrite !Nat.add_0_r, Nat.mul_0_r. lia.
  - specialize (G2 L1 L2 Logic.I). cbn. lia.
  - specialize (G2 L1 L2 Logic.I). cbn. lia.
Qed.
End Loop.

(** An opening bracket, items with separators, a closing bracket. *)
Lemma li_group : forall X Y Z W n A B C As (open : mparser W) (g : mparser X) (s : option (mparser Y)) (close : mparser Z) Ao Bo,
  inside (S n) 1 open -> lin (S n) Ao Bo open -> Ao + Bo + B + C + 3 <= A ->
  inside n 1 g -> (forall inp off v k, off <= length inp -> length inp - off < n -> fst (g inp off) = Success v k -> cnt (snd (g inp off)) <= A * k + B) ->
  (forall h, s = Some h -> inside n 1 h /\ forall inp off v k, off <= length inp -> length inp - off < n -> fst (h inp off) = Success v k -> cnt (snd (h inp off)) <= As * k) ->
  match s with Some _ => As + B <= A | None => B = 0 end ->
  (forall inp off, off <= length inp -> length inp - off < n -> fails (fst (g inp off)) -> cnt (snd (g inp off)) + cnt (snd (close inp off)) <= A * used (fst (close inp off)) inp off + C) ->
  (forall h inp off, s = Some h -> off <= length inp -> length inp - off < n -> fails (fst (h inp off)) -> cnt (snd (h inp off)) + cnt (snd (close inp off)) <= A * used (fst (close inp off)) inp off + C) ->
  inside n 0 close -> lin (S n) A (S Bo) (m_surround open (m_rep g (rg_from 0) s) close).
Proof.
  intros X Y Z W n A B C As open g s close Ao Bo I0 H0 HA I1 H1 H2 HB H3 H4 I2 inp off L1 L2. unfold m_surround, m_skip_left, m_skip_right, m_two.
  specialize (H0 inp off L1 L2). specialize (I0 inp off). destruct (open inp off) as [o m]. cbn [fst snd] in *.
  assert (Z0 : Ao * used o inp off <= A * used o inp off) by (apply Nat.mul_le_mono_r; lia).
  destruct o as [x d|e b| |]; cbn [fst snd up cnt p_skip_left used] in *; try lia.
  destruct (I0 x d L1 L2 eq_refl) as [B1 B2]. assert (L3 : length inp - (off + d) < n) by lia.
  assert (OD : Ao * d + Bo + B + C + 3 <= A * d) by nia.
  assert (R : let r := m_rep g (rg_from 0) s inp (off + d) in
    match fst r with
    | Success l k => off + d + k <= length inp /\ cnt (snd r) + cnt (snd (close inp (off + d + k))) <= S B + A * k + A * used (fst (close inp (off + d + k))) inp (off + d + k) + C
    | _ => cnt (snd r) <= S B + A * (length inp - (off + d)) + C
    end).
  { apply (@li_rep X Y Z n A B C As g s close); try assumption.
    - intros i o v k K1 K2 K3. destruct (I1 i o v k K1 K2 K3) as [J1 J2]. specialize (H1 i o v k K1 K2 K3). repeat split; assumption.
    - intros h i o v k K0 K1 K2 K3. destruct (H2 h K0) as [J1 J2]. destruct (J1 i o v k K1 K2 K3). repeat split; try assumption. eapply J2; eassumption.
    - intros i o v k K1 K2 K3. eapply I2; eassumption. }
  cbv zeta in R. assert (SP : length inp - off = d + (length inp - (off + d))) by lia.
  assert (SA : A * (length inp - off) = A * d + A * (length inp - (off + d))) by (rewrite SP; apply Nat.mul_add_distr_l).
  destruct (m_rep g (rg_from 0) s inp (off + d)) as [o1 m1]. cbn [fst snd] in R. destruct o1 as [l k|e b| |]; cbn [p_skip_right fst snd up both cnt p_skip_left advance_success add_commit]; [|cbn [used]; lia..].
  destruct R as [R1 R2]. specialize (I2 inp (off + d + k)). destruct (close inp (off + d + k)) as [o2 m2]. cbn [fst snd] in *.
  assert (SK : A * (length inp - (off + d)) = A * k + A * (length inp - (off + d + k))) by (rewrite <- Nat.mul_add_distr_l; f_equal; lia).
  destruct o2 as [z k2|e b| |]; cbn [p_skip_right fst snd up both cnt p_skip_left advance_success add_commit used] in *; [|lia..].
  rewrite !Nat.mul_add_distr_l. lia.
Qed.

(** A repetition of a parser that calls few closures. *)
Lemma li_many : forall A n c (g : mparser A) mn, small c g -> inside n 1 g -> lin n c (S c) (m_rep g (rg_from mn) (None : option (mparser unit))).
Proof.
  intros A n c g mn H I inp off L1 L2.
  pose proof (@li_rep A unit unit n c 0 c 0 g None (fun _ _ => (Success tt 0, Meas 0 0))) as R. cbn [fst snd used cnt] in R.
  specialize (R ltac:(intros i o v k K1 K2 K3; destruct (I i o v k K1 K2 K3) as [J1 J2]; specialize (H i o); repeat split; [assumption..|nia])).
  specialize (R ltac:(discriminate) eq_refl).
  specialize (R ltac:(intros i o _ _ _; specialize (H i o); lia)). specialize (R ltac:(discriminate) ltac:(intros i o v k K1 _ E; inv E; lia) mn inp off L1 L2). cbv zeta in R.
  destruct (m_rep g (rg_from mn) None inp off) as [o m]. cbn [fst snd] in *. destruct o as [l k|e b| |]; cbn [used]; lia.
Qed.
(** Alternatives that begin with different elements. *)
Lemma li_or_apart : forall A n a b c d d' st st' (g h : mparser A), off_at st d g -> off_at st' d' h -> (forall x, st x = true -> st' x = false) -> lin n a b g -> lin n a c h ->
  lin n a (S (b + c + (d + d'))) (m_or g h).
Proof.
  intros A n a b c d d' st st' g h H1 H2 K G H. apply li_or; [exact G|exact H|]. intros inp off e L1 L2 E.
  assert (D : hd_not st (skipn off inp) \/ hd_not st' (skipn off inp)).
  { destruct (skipn off inp) as [|x l]; [now left|]. cbn. destruct (st x) eqn:Q; [right; now apply K|now left]. }
  destruct D as [D|D]; [left; destruct (H1 inp off L1 D); lia|right]. destruct (H2 inp off L1 D) as [[e' E'] C']. rewrite E'. split; [exact I|lia].
Qed.

(** ** The parts of the JSON grammar *)
Ltac out_two := intros o o2 inp0 off0 v0 n0 E0; destruct o as [x1 n1|e1 b1| |]; cbn in E0; try discriminate; destruct o2 as [x2 n2|e2 [|]| |]; cbn in E0;
  first [discriminate E0 | (destruct (n1 =? 0); discriminate E0) | (inv E0; eexists; eexists; eexists; eexists; repeat split; lia) | idtac].
Ltac out_fail := intros x1 n1 o inp0 off0 e0 b0 E0; destruct o as [x2 n2|e2 b2| |]; cbn in E0; try discriminate E0; eexists; eexists; reflexivity.
Ltac fail_two := intros e0 b0 q0 inp0 off0; now eexists.
Lemma li_and : forall A B n a b c (g : mparser A) (h : mparser B) j i, inside n j g -> lin n a b g -> inside n i h -> lin n a c h -> lin n a (S (b + c)) (m_and g h).
Proof. intros A B n a b c g h j i I1 H1 I2 H2. eapply li_two; [out_two|eassumption..]. Qed.
Lemma li_skip_left : forall A B n a b c (g : mparser A) (h : mparser B) j i, inside n j g -> lin n a b g -> inside n i h -> lin n a c h -> lin n a (S (b + c)) (m_skip_left g h).
Proof. intros A B n a b c g h j i I1 H1 I2 H2. eapply li_two; [out_two|eassumption..]. Qed.
Lemma li_skip_right : forall A B n a b c (g : mparser A) (h : mparser B) j i, inside n j g -> lin n a b g -> inside n i h -> lin n a c h -> lin n a (S (b + c)) (m_skip_right g h).
Proof. intros A B n a b c g h j i I1 H1 I2 H2. eapply li_two; [out_two|eassumption..]. Qed.
Lemma li_map : forall A B n a b (g : mparser A) (f : A -> B) j, inside n j g -> lin n a b g -> lin n a (S b) (m_map g f).
Proof. intros A B n a b g f j I H. eapply li_one; [|eassumption..]. intros o inp off v k E. destruct o; inv E. now eexists. Qed.
Lemma li_map_res : forall A B E n a b (g : mparser A) (f : A -> B + E) j, inside n j g -> lin n a b g -> lin n a (S b) (m_map_res g f).
Proof. intros A B E n a b g f j I H. eapply li_one; [|eassumption..]. intros o inp off v k E0. destruct o as [x d|e c| |]; cbn in E0; try discriminate. unfold p_map_res in E0. destruct (f x); [inv E0; now eexists|]. destruct (ps_input inp off); discriminate. Qed.
Lemma li_collect : forall A n a b (g : mparser A) j, inside n j g -> lin n a b g -> lin n a (S b) (m_collect g).
Proof. intros A n a b g j I H. eapply li_one; [|eassumption..]. intros o inp off v k E. destruct o as [x d|e c| |]; try discriminate. unfold p_collect in E. destruct (slice_with_len inp off d); inv E. now eexists. Qed.
Lemma li_discard : forall A n a b (g : mparser A) j, inside n j g -> lin n a b g -> lin n a (S b) (m_discard g).
Proof. intros A n a b g j I H. eapply li_one; [|eassumption..]. intros o inp off v k E. destruct o; inv E. now eexists. Qed.
Lemma li_lazy : forall A n a b (g : mparser A) j, inside n j g -> lin n a b g -> lin n a (S b) (m_lazy g).
Proof. intros A n a b g j I H. eapply li_one; [|eassumption..]. intros o inp off v k E. unfold p_lazy in E. rewrite E. now eexists. Qed.
Lemma oa_map : forall A B st c (g : mparser A) (f : A -> B), off_at st c g -> off_at st (S c) (m_map g f).
Proof. intros A B st c g f H. apply oa_one; [|exact H]. intros e b inp off. now eexists. Qed.
Lemma oa_map_res : forall A B E st c (g : mparser A) (f : A -> B + E), off_at st c g -> off_at st (S c) (m_map_res g f).
Proof. intros A B E st c g f H. apply oa_one; [|exact H]. intros e b inp off. now eexists. Qed.
Lemma oa_collect : forall A st c (g : mparser A), off_at st c g -> off_at st (S c) (m_collect g).
Proof. intros A st c g H. apply oa_one; [|exact H]. intros e b inp off. now eexists. Qed.
Lemma oa_lazy : forall A st c (g : mparser A), off_at st c g -> off_at st (S c) (m_lazy g).
Proof. intros A st c g H. apply oa_one; [|exact H]. intros e b inp off. now eexists. Qed.
Lemma oa_and : forall A B st c (g : mparser A) (h : mparser B), off_at st c g -> off_at st (S c) (m_and g h).
Proof. intros A B st c g h H. apply oa_two; [fail_two|exact H]. Qed.
Lemma oa_skip_left : forall A B st c (g : mparser A) (h : mparser B), off_at st c g -> off_at st (S c) (m_skip_left g h).
Proof. intros A B st c g h H. apply oa_two; [fail_two|exact H]. Qed.
Lemma oa_skip_right : forall A B st c (g : mparser A) (h : mparser B), off_at st c g -> off_at st (S c) (m_skip_right g h).
Proof. intros A B st c g h H. apply oa_two; [fail_two|exact H]. Qed.
Lemma ch_and : forall A B c d (g : mparser A) (h : mparser B), small c g -> cheap d h -> cheap (S (c + d)) (m_and g h).
Proof. intros A B c d g h H1 H2. apply ch_two; [out_fail|exact H1|exact H2]. Qed.
Lemma ch_skip_right : forall A B c d (g : mparser A) (h : mparser B), small c g -> cheap d h -> cheap (S (c + d)) (m_skip_right g h).
Proof. intros A B c d g h H1 H2. apply ch_two; [out_fail|exact H1|exact H2]. Qed.

Lemma in_one : forall A B (k : parser N A -> parser N B) n j g, (forall o inp off v n, k (fun _ _ => o) inp off = Success v n -> exists x, o = Success x n) -> inside n j g -> inside n j (m_one k g).
Proof.
  intros A B k n j g K H inp off v d L1 L2 E. unfold m_one in E. specialize (H inp off). destruct (g inp off) as [o m]. cbn [fst] in *. apply K in E. destruct E as [x ->]. now apply (H x d).
Qed.
Lemma in_two : forall A B C (k : parser N A -> parser N B -> parser N C) n j i g h,
  (forall o o2 inp off v n, k (fun _ _ => o) (fun _ _ => o2) inp off = Success v n -> exists x y n1 n2, o = Success x n1 /\ o2 = Success y n2 /\ n = n1 + n2) ->
  inside n j g -> inside n i h -> inside n (j + i) (m_two k g h).
Proof.
  intros A B C k n j i g h K H1 H2 inp off v d L1 L2 E. unfold m_two in E. specialize (H1 inp off). destruct (g inp off) as [o m]. cbn [fst] in H1.
  assert (NS : fails o -> k (fun _ _ => o) p_diverge inp off <> Success v d).
  { intros Fo E'. change (k (fun _ _ => o) (fun _ _ => Diverge) inp off = Success v d) in E'. apply K in E'. destruct E' as (x & y & n1 & n2 & -> & E' & _). discriminate. }
  destruct o as [x n1|e b| |]; try (exfalso; now apply (NS Logic.I)). destruct (H1 x n1 L1 L2 eq_refl) as [B1 B2]. specialize (H2 inp (off + n1)).
  destruct (h inp (off + n1)) as [o2 m2]. cbn [fst] in *. apply K in E. destruct E as (x1 & y & k1 & k2 & E1 & -> & ->). inv E1. destruct (H2 y k2 B1 ltac:(lia) eq_refl). lia.
Qed.
Lemma in_two_S : forall A B C (k : parser N A -> parser N B -> parser N C) n i g h,
  (forall o o2 inp off v n, k (fun _ _ => o) (fun _ _ => o2) inp off = Success v n -> exists x y n1 n2, o = Success x n1 /\ o2 = Success y n2 /\ n = n1 + n2) ->
  inside (S n) 1 g -> inside n i h -> inside (S n) (S i) (m_two k g h).
Proof.
  intros A B C k n i g h K H1 H2 inp off v d L1 L2 E. unfold m_two in E. specialize (H1 inp off). destruct (g inp off) as [o m]. cbn [fst] in H1.
  assert (NS : fails o -> k (fun _ _ => o) p_diverge inp off <> Success v d).
  { intros Fo E'. change (k (fun _ _ => o) (fun _ _ => Diverge) inp off = Success v d) in E'. apply K in E'. destruct E' as (x & y & n1 & n2 & -> & E' & _). discriminate. }
  destruct o as [x n1|e b| |]; try (exfalso; now apply (NS Logic.I)). destruct (H1 x n1 L1 L2 eq_refl) as [B1 B2]. specialize (H2 inp (off + n1)).
  destruct (h inp (off + n1)) as [o2 m2]. cbn [fst] in *. apply K in E. destruct E as (x1 & y & k1 & k2 & E1 & -> & ->). inv E1. destruct (H2 y k2 B1 ltac:(lia) eq_refl). lia.
Qed.
Lemma in_or : forall A n j i (g h : mparser A), inside n j g -> inside n i h -> inside n (Nat.min j i) (m_or g h).
Proof.
  intros A n j i g h H1 H2 inp off v d L1 L2 E. unfold m_or in E. specialize (H1 inp off). specialize (H2 inp off). destruct (g inp off) as [[x k|e [|]| |] m]; cbn [fst] in *; try discriminate.
  - inv E. destruct (H1 v d L1 L2 eq_refl). lia.
  - destruct (h inp off) as [o2 m2]. cbn [fst] in *. destruct (H2 v d L1 L2 E). lia.
Qed.
Lemma in_opt : forall A n j (g : mparser A), inside n j g -> inside n 0 (m_opt g).
Proof.
  intros A n j g H. eapply in_le; [apply in_or with (j := j) (i := 0)|lia].
  - apply in_one; [intros o inp off v k E; destruct o; inv E; now eexists|]. apply in_one; [|exact H]. intros o inp off v k E. destruct o as [x d|e [|]| |]; inv E. now eexists.
  - intros inp off v k L1 L2 E. inv E. lia.
Qed.
Lemma in_loop : forall A B n j i (g : mparser A) (s : option (mparser B)), inside n j g -> match s with Some h => inside n i h | None => True end ->
  forall fuel rend inp cur items all m l k, cur <= length inp -> length inp - cur < n -> fst (m_loop fuel g s rend inp cur items all m) = RDone l k -> all <= k /\ cur + (k - all) <= length inp.
Proof.
  intros A B n j i g s H1 H2. induction fuel as [|fuel IH]; intros rend inp cur items all m l k L1 L2; cbn [m_loop]; [discriminate|].
  destruct (rep_stop rend (length items)); [intros E; inv E; lia|].
  assert (E : forall d m0, cur + d <= length inp -> fst (let '(o, m1) := g inp (cur + d) in
      match o with
      | Success v n => m_loop fuel g s rend inp (cur + d + n) (v :: items) (all + d + n) (both m0 m1)
      | Failure _ _ => (RDone (rev items) (all + d), both m0 m1)
      | Panic => (RPanic, both m0 m1)
      | Diverge => (RDiverge, both m0 m1)
      end) = RDone l k -> all <= k /\ cur + (k - all) <= length inp).
  { intros d m0 Ld. specialize (H1 inp (cur + d)). destruct (g inp (cur + d)) as [[v q|e b| |] m1]; cbn [fst] in *; [|intros E; inv E; lia|discriminate..].
    destruct (H1 v q Ld ltac:(lia) eq_refl) as [B1 _]. intros E. apply IH in E; lia. }
  destruct s as [h|].
  - specialize (H2 inp cur). destruct (h inp cur) as [[v q|e b| |] m1]; cbn [fst] in *; [|intros E0; inv E0; lia|discriminate..]. destruct (H2 v q L1 L2 eq_refl) as [B1 _]. now apply E.
  - specialize (E 0 m). rewrite !Nat.add_0_r in E. now apply E.
Qed.
Lemma in_rep : forall A B n j i (g : mparser A) (s : option (mparser B)) r, inside n j g -> match s with Some h => inside n i h | None => True end -> inside n 0 (m_rep g r s).
Proof.
  intros A B n j i g s r H1 H2 inp off v d L1 L2 E. unfold m_rep in E. pose proof (H1 inp off) as H0. destruct (g inp off) as [[x k|e b| |] m]; cbn [fst] in *; try discriminate.
  - destruct (H0 x k L1 L2 eq_refl) as [B1 _]. pose proof (@in_loop A B n j i g s H1 H2 (rep_fuel (rg_end r) inp off) (rg_end r) inp (off + k) [x] k m) as L.
    destruct (m_loop _ g s _ inp (off + k) [x] k m) as [[l k2| |] m']; cbn [fst] in *; try discriminate. destruct (L l k2 B1 ltac:(lia) eq_refl). apply finish_ok in E. destruct E as [-> ->]. lia.
  - apply finish_ok in E. destruct E as [-> ->]. lia.
Qed.
Lemma in_many1 : forall A n j (g : mparser A), inside n j g -> inside n j (m_many1 g).
Proof.
  intros A n j g H inp off v d L1 L2 E. destruct (@in_rep A unit n j 0 g None (rg_from 1) H I inp off v d L1 L2 E) as [B1 _]. split; [exact B1|]. unfold m_many1, m_rep in E.
  pose proof (H inp off) as H0. destruct (g inp off) as [[x k|e b| |] m]; cbn [fst] in *; try discriminate.
  - destruct (H0 x k L1 L2 eq_refl) as [B2 B3]. pose proof (@in_loop A unit n j 0 g None H I (rep_fuel (rg_end (rg_from 1)) inp off) (rg_end (rg_from 1)) inp (off + k) [x] k m) as L.
    destruct (m_loop _ g None _ inp (off + k) [x] k m) as [[l k2| |] m']; cbn [fst] in *; try discriminate. destruct (L l k2 B2 ltac:(lia) eq_refl). apply finish_ok in E. destruct E as [-> ->]. lia.
  - revert E. cbn [rep_finish rg_from rg_start]. cbn. destruct (ps_input inp (off + 0)); discriminate.
Qed.
Lemma in_and : forall A B n j i (g : mparser A) (h : mparser B), inside n j g -> inside n i h -> inside n (j + i) (m_and g h).
Proof. intros. apply in_two; [out_two|assumption..]. Qed.
Lemma in_skip_left : forall A B n j i (g : mparser A) (h : mparser B), inside n j g -> inside n i h -> inside n (j + i) (m_skip_left g h).
Proof. intros. apply in_two; [out_two|assumption..]. Qed.
Lemma in_skip_right : forall A B n j i (g : mparser A) (h : mparser B), inside n j g -> inside n i h -> inside n (j + i) (m_skip_right g h).
Proof. intros. apply in_two; [out_two|assumption..]. Qed.
Lemma in_map : forall A B n j (g : mparser A) (f : A -> B), inside n j g -> inside n j (m_map g f).
Proof. intros A B n j g f H. apply in_one; [|exact H]. intros o inp off v k E. destruct o; inv E. now eexists. Qed.
Lemma in_map_res : forall A B E n j (g : mparser A) (f : A -> B + E), inside n j g -> inside n j (m_map_res g f).
Proof. intros A B E n j g f H. apply in_one; [|exact H]. intros o inp off v k E0. destruct o as [x d|e c| |]; cbn in E0; try discriminate. unfold p_map_res in E0. destruct (f x); [inv E0; now eexists|]. destruct (ps_input inp off); discriminate. Qed.
Lemma in_collect : forall A n j (g : mparser A), inside n j g -> inside n j (m_collect g).
Proof. intros A n j g H. apply in_one; [|exact H]. intros o inp off v k E. destruct o as [x d|e c| |]; try discriminate. unfold p_collect in E. destruct (slice_with_len inp off d); inv E. now eexists. Qed.
Lemma in_discard : forall A n j (g : mparser A), inside n j g -> inside n j (m_discard g).
Proof. intros A n j g H. apply in_one; [|exact H]. intros o inp off v k E. destruct o; inv E. now eexists. Qed.
Lemma in_lazy : forall A n j (g : mparser A), inside n j g -> inside n j (m_lazy g).
Proof. intros A n j g H. apply in_one; [|exact H]. intros o inp off v k E. unfold p_lazy in E. rewrite E. now eexists. Qed.
Lemma in_filter_not : forall A n j (g : mparser A) f, inside n j g -> inside n j (m_filter_not g f).
Proof.
  intros A n j g f H. apply in_one; [|exact H]. intros o inp off v k E. unfold p_filter_not, p_filter in E. destruct o as [x d|e c| |]; try discriminate.
  destruct (negb (f x)); [inv E; now eexists|]. destruct (ps_input inp off); discriminate.
Qed.

Section Parts.
Variable F : Type.
Variable f64_parse : list N -> F + unit.
Variable utf8 : bool.
Ltac sm := repeat first [ apply sm_leaf | apply sm_opt | apply sm_or | apply sm_count | apply sm_two | apply sm_one | assumption ].
Ltac ins := repeat first [ assumption | apply in_map | apply in_map_res | apply in_collect | apply in_discard | apply in_lazy | apply in_filter_not
  | apply in_and | apply in_skip_left | apply in_skip_right | eapply in_opt | apply in_or | apply in_many1 ].

Lemma in_space : forall n, inside n 0 mj_space.
Proof. intros n. eapply in_hoare; [apply er_space|apply h_space|intros; lia]. Qed.
Lemma in_elm : forall n c, inside n 1 (m_elm_ref c).
Proof. intros n c. eapply in_hoare; [apply er_leaf|apply h_elm_ref with (R := fun _ s => s = [c]); reflexivity|]. intros v s ->. apply le_n. Qed.
Lemma in_elm_of : forall n l, inside n 1 (m_elm_of l).
Proof.
  intros n l. eapply (@in_hoare _ n 1 _ (p_elm_of l)); [unfold m_elm_of, p_elm_of, p_elm_of_set; apply er_map, er_leaf|apply h_elm_of with (R := fun _ s => length s = 1); reflexivity|]. cbv beta. intros v s ->. apply le_n.
Qed.
Lemma in_digit : forall n, inside n 1 m_digit_ref.
Proof. intros n. eapply in_hoare; [apply er_leaf|apply h_elm_pred_ref with (R := fun _ s => length s = 1); reflexivity|]. cbv beta. intros v s ->. apply le_n. Qed.
Lemma li_space : forall n, lin n 2 4 mj_space.
Proof. intros n. pose proof (in_elm_of (n := n)). unfold mj_space. eapply li_discard with (j := 0); [|apply li_many; [unfold m_elm_of; sm|auto]]. eapply in_rep with (i := 0); [apply H|exact I]. Qed.
Definition wsp (x : N) : bool := existsb (N.eqb x) [32; 9; 13; 10]%N.
Lemma wsp_is : forall x, wsp x = true <-> is_ws x.
Proof. intros x. unfold wsp, is_ws. rewrite existsb_exists. split; [intros (y & H & E); apply N.eqb_eq in E; now subst|intros H; exists x; split; [exact H|apply N.eqb_refl]]. Qed.
Lemma ws_split : forall l, exists s r, l = s ++ r /\ ws s /\ no_ws r.
Proof.
  induction l as [|x l IH]; [exists [], []; repeat split; constructor|]. destruct (wsp x) eqn:E.
  - destruct IH as (s & r & -> & H1 & H2). exists (x :: s), r. split; [reflexivity|]. split; [constructor; [now apply wsp_is|exact H1]|exact H2].
  - exists [], (x :: l). repeat split; [constructor|]. intros K. apply wsp_is in K. congruence.
Qed.
Lemma sp_ok : forall inp off, off <= length inp -> exists w, fst (mj_space inp off) = Success tt w /\ off + w <= length inp /\ cnt (snd (mj_space inp off)) <= 2 * w + 4 /\ (hd_not wsp (skipn off inp) -> w = 0).
Proof.
  intros inp off L. destruct (ws_split (skipn off inp)) as (s & r & E & H1 & H2). pose proof (@a_space s r H1 H2 (firstn off inp)) as A. rewrite <- E, firstn_skipn, firstn_length, Nat.min_l in A by exact L.
  rewrite <- (er_space inp off) in A. exists (length s). split; [exact A|]. pose proof (@li_space (S (length inp - off)) inp off L ltac:(lia)) as C. rewrite A in C. cbn [used] in C.
  assert (LS : length (skipn off inp) = length (s ++ r)) by now rewrite E. rewrite app_length, skipn_length in LS. split; [lia|]. split; [exact C|].
  intros N0. rewrite E in N0. destruct s as [|x s]; [reflexivity|]. cbn [app hd_not] in N0. pose proof (Forall_inv H1) as Wx. apply wsp_is in Wx. congruence.
Qed.

Lemma li_digits : forall n mn, lin n 1 2 (m_rep m_digit_ref (rg_from mn) (None : option (mparser unit))).
Proof. intros n mn. apply li_many; [apply sm_leaf|apply in_digit]. Qed.
Lemma in_digits0 : forall n, inside n 0 (m_many0 m_digit_ref).
Proof. intros n. eapply in_rep with (i := 0); [apply in_digit|exact I]. Qed.
Lemma in_digits1 : forall n, inside n 1 (m_many1 m_digit_ref).
Proof. intros n. apply in_many1, in_digit. Qed.
Lemma sm_19 : small 2 m_digit_1_9_ref.
Proof. unfold m_digit_1_9_ref, m_filter_not. sm. Qed.
Lemma in_19 : forall n, inside n 1 m_digit_1_9_ref.
Proof. intros n. apply in_filter_not, in_digit. Qed.
Lemma in_integer : forall n, inside n 1 mj_integer.
Proof. intros n. eapply in_le; [apply in_or; [apply in_skip_right; [apply in_19|apply in_digits0]|apply in_elm]|]. cbn. lia. Qed.
Lemma li_integer : forall n, lin n 1 10 mj_integer.
Proof.
  intros n. unfold mj_integer. eapply li_le; [eapply li_or with (b := 5) (c := 1) (d := 3)|apply le_n|lia].
  - apply (@li_skip_right _ _ n 1 2 2 _ _ 1 0); [apply in_19|apply li_small, sm_19|apply in_digits0|apply li_digits].
  - apply li_small, sm_leaf.
  - intros inp off e _ _ E. left. revert E. apply (@ch_skip_right _ _ 2 0); [apply sm_19|apply ch_many0].
Qed.
Lemma in_frac : forall n, inside n 1 mj_frac.
Proof. intros n. eapply in_le; [apply in_and; [apply in_elm|apply in_digits1]|lia]. Qed.
Lemma in_expo : forall n, inside n 1 mj_expo.
Proof. intros n. eapply in_le; [apply in_and; [apply in_and; [apply in_elm_of|eapply in_opt, in_elm_of]|apply in_digits1]|lia]. Qed.
Lemma in_number : forall n, inside n 1 (mj_number f64_parse).
Proof.
  intros n. unfold mj_number. apply in_map_res, in_map, in_collect.
  eapply in_le; [apply in_and; [apply in_and; [apply in_and; [eapply in_opt, in_elm|apply in_integer]|eapply in_opt, in_frac]|eapply in_opt, in_expo]|lia].
Qed.
Lemma li_number : forall n, lin n 1 61 (mj_number f64_parse).
Proof.
  intros n. unfold mj_number.
  assert (I1 : inside n 1 (m_and (m_opt (m_elm_ref (chr "-"))) mj_integer)) by (eapply in_le; [apply in_and; [eapply in_opt, in_elm|apply in_integer]|lia]).
  assert (I2 : inside n 1 (m_and (m_and (m_opt (m_elm_ref (chr "-"))) mj_integer) (m_opt mj_frac))) by (eapply in_le; [apply in_and; [exact I1|eapply in_opt, in_frac]|lia]).
  assert (I3 : inside n 1 (m_and (m_and (m_and (m_opt (m_elm_ref (chr "-"))) mj_integer) (m_opt mj_frac)) (m_opt mj_expo))) by (eapply in_le; [apply in_and; [exact I2|eapply in_opt, in_expo]|lia]).
  assert (LF : lin n 1 12 (m_opt mj_frac)).
  { eapply li_le; [eapply li_opt with (b := 4) (c := 4)|apply le_n|lia]; [apply in_frac|apply (@li_and _ _ n 1 1 2 _ _ 1 1); [apply in_elm|apply li_small, sm_leaf|apply in_digits1|apply li_digits]|].
    apply (@ch_and _ _ 1 2); [apply sm_leaf|]. apply (@ch_many1 _ 1), sm_leaf. }
  assert (LE : lin n 1 28 (m_opt mj_expo)).
  { assert (S9 : small 9 (m_and (m_elm_of (bs "eE")) (m_opt (m_elm_of (bs "+-"))))) by (eapply sm_le; [unfold m_and, m_elm_of; sm|lia]).
    eapply li_le; [eapply li_opt with (b := 12) (c := 12)|apply le_n|lia]; [apply in_expo|apply (@li_and _ _ n 1 9 2 _ _ (1 + 0) 1); [apply in_and; [apply in_elm_of|eapply in_opt, in_elm_of]|apply li_small, S9|apply in_digits1|apply li_digits]|].
    apply (@ch_and _ _ 9 2); [exact S9|]. apply (@ch_many1 _ 1), sm_leaf. }
  eapply li_le; [eapply li_map_res, li_map, li_collect; [apply in_map, in_collect|apply in_collect|..]|apply le_n|]; [exact I3|exact I3|exact I3| |].
  - eapply li_and; [exact I2| |eapply in_opt, in_expo|exact LE]. eapply li_and; [exact I1| |eapply in_opt, in_frac|exact LF].
    eapply li_and; [eapply in_opt, in_elm|apply li_small, sm_opt, sm_leaf|apply in_integer|apply li_integer].
  - lia.
Qed.

(** Spaces, then an element. *)
Lemma oa_space : forall A (h : mparser A) st c, off_at st c h -> (forall x, wsp x = true -> st x = true) -> off_at st (c + 5) (m_and mj_space h) /\ off_at st (c + 5) (m_skip_left mj_space h).
Proof.
  intros A h st c H K. assert (G : forall inp off, off <= length inp -> hd_not st (skipn off inp) -> exists m e m2, mj_space inp off = (Success tt 0, m) /\ cnt m <= 4 /\ h inp (off + 0) = (Failure e false, m2) /\ cnt m2 <= c).
  { intros inp off L1 L2. destruct (@sp_ok inp off L1) as (w & E & B & C & Z). destruct (H inp off L1 L2) as [[e E2] C2].
    assert (W : w = 0). { apply Z. destruct (skipn off inp) as [|x l]; [exact Logic.I|]. cbn [hd_not] in *. destruct (wsp x) eqn:Q; [|reflexivity]. apply K in Q. congruence. }
    subst w. rewrite Nat.add_0_r. destruct (mj_space inp off) as [o m]. destruct (h inp off) as [o2 m2]. cbn [fst snd] in *. subst. exists m, e, m2. repeat split; lia. }
  split; intros inp off L1 L2; destruct (G inp off L1 L2) as (m & e & m2 & E1 & C1 & E2 & C2); unfold m_and, m_skip_left, m_two; rewrite E1, E2; cbn; (split; [now eexists|lia]).
Qed.
Lemma oa_elm : forall c, off_at (N.eqb c) 1 (m_elm_ref c).
Proof.
  intros c. eapply oa_rej; [apply er_leaf| |apply sm_leaf]. intros l H. apply r_elm_ref. destruct l as [|x l]; [exact I|]. cbn [hd_not] in H. apply N.eqb_neq in H. congruence.
Qed.
Lemma li_elm : forall n c, lin n 0 1 (m_elm_ref c).
Proof. intros n c. apply li_small, sm_leaf. Qed.
Lemma li_elm' : forall n a c, lin n a 1 (m_elm_ref c).
Proof. intros n a c. apply li_small, sm_leaf. Qed.

(** ** Strings *)
Definition m_char : mparser N := m_map (m_or (m_leaf (p_none_ref_of (set_contains [92; 34]%N))) mj_escape) (fun x => x).
Lemma er_char : erases m_char char_elm.
Proof. unfold m_char, char_elm, mj_escape, escape_sequence, mj_special_char, special_char. repeat first [apply er_leaf|apply er_map|apply er_or|apply er_skip_left]. Qed.
Lemma sm_char : small 25 m_char.
Proof. eapply sm_le; [unfold m_char, mj_escape, mj_special_char, m_map, m_skip_left, m_elm_ref; sm|]. lia. Qed.
Lemma in_char : forall n, inside n 1 m_char.
Proof.
  intros n. eapply in_hoare; [apply er_char|apply h_char|]. cbv beta. intros v s (i & -> & P & _). destruct i; [cbn; lia|cbn; lia|contradiction].
Qed.
Definition m_hex : mparser N := mj_utf16_char utf8.
Lemma er_hex : erases m_hex (utf16_char utf8).
Proof. unfold m_hex, mj_utf16_char, utf16_char, m_hex_digit, p_elm_hex_digit, p_elm_pred. repeat first [apply er_leaf|apply er_map|apply er_map_res|apply er_count|apply er_skip_left]. Qed.
Lemma sm_hex : small 15 m_hex.
Proof. eapply sm_le; [unfold m_hex, mj_utf16_char, m_hex_digit, m_map, m_map_res, m_skip_left; repeat first [apply sm_leaf|apply sm_count|apply sm_two|apply sm_one]|]. lia. Qed.
Lemma in_hex : forall n, inside n 1 m_hex.
Proof. intros n. eapply in_hoare; [apply er_hex|apply h_utf16_char|]. cbv beta. intros v s (h & -> & _). cbn. lia. Qed.
Definition not_quote (x : N) : bool := negb (x =? 34)%N.
Lemma oa_char : off_at not_quote 25 m_char.
Proof.
  eapply oa_rej; [apply er_char| |apply sm_char]. intros [|x l] H.
  - unfold char_elm. apply r_map, r_or; [now apply r_none_ref_of|]. apply r_skip_left1, r_elm_ref. exact I.
  - cbn in H. unfold not_quote in H. destruct (N.eqb_spec x 34); [subst|discriminate]. apply r_char_quote.
Qed.
Lemma oa_hex : off_at (N.eqb 92) 15 m_hex.
Proof.
  eapply oa_rej; [apply er_hex| |apply sm_hex]. intros l H. apply r_utf16_hd. destruct l as [|x l]; [exact I|]. cbn [hd_not] in H. apply N.eqb_neq in H. congruence.
Qed.
Definition m_pieces : mparser (list N) := m_or (mj_char_string utf8) (mj_utf16_string utf8).
Lemma er_pieces : erases m_pieces (pieces utf8).
Proof. unfold m_pieces, pieces. pose proof er_char. pose proof er_hex. apply er_or; [apply er_map_res, er_many1, er_char|apply er_map, er_many1, er_hex]. Qed.
Lemma in_pieces : forall n, inside n 1 m_pieces.
Proof. intros n. eapply in_hoare; [apply er_pieces|apply h_pieces|]. cbv beta. intros v s H. destruct s; [congruence|cbn; lia]. Qed.
Lemma first_fails : forall A c (g : mparser A) inp off, off <= length inp -> small c g -> (exists e b, fst (g inp off) = Failure e b) ->
  fails (fst (m_many1 g inp off)) /\ cnt (snd (m_many1 g inp off)) <= S c.
Proof.
  intros A c g inp off L H (e & b & E). unfold m_many1, m_rep. specialize (H inp off). destruct (g inp off) as [o m]. cbn [fst snd] in *. subst o. cbn. rewrite Nat.add_0_r, ps_input_ok by exact L.
  split; [exact I|lia].
Qed.
Lemma li_pieces : forall n, lin n 25 72 m_pieces.
Proof.
  intros n. unfold m_pieces. eapply li_le; [eapply li_or with (b := 27) (c := 17) (d := 27)|apply le_n|lia].
  - eapply li_map_res; [apply in_many1, in_char|]. apply li_many; [apply sm_char|apply in_char].
  - eapply li_map; [apply in_many1, in_hex|]. eapply li_le; [apply li_many; [apply sm_hex|apply in_hex]|lia..].
  - intros inp off e L1 L2 _. pose proof (@h_char inp off L1) as H. fold char_elm in H. rewrite <- (er_char inp off) in H. destruct (fst (m_char inp off)) as [v k|e1 b1| |] eqn:Q; try contradiction.
    + right. destruct H as (B & i & Ei & Pi & Oi & _).
      assert (SP : exists rest, inp = firstn off inp ++ item_text i ++ rest). { exists (skipn k (skipn off inp)). now rewrite <- Ei, !firstn_skipn. }
      destruct SP as [rest SP]. assert (LF : length (firstn off inp) = off) by (rewrite firstn_length; lia).
      assert (R : exists e b, fst (m_hex inp off) = Failure e b).
      { rewrite (er_hex inp off). destruct i as [x|c|h]; [| |contradiction]; cbn [item_text app] in SP.
        - destruct (@r_utf16_hd utf8 (x :: rest)) with (pre := firstn off inp) as [e' E']; [cbn in Oi; tauto|]. rewrite LF in E'. cbn [app] in SP. rewrite <- SP in E'. eauto.
        - destruct (@r_utf16_esc utf8 c rest) with (pre := firstn off inp) as [e' E']; [cbn in Oi; intros ->; cbn in Oi; intuition discriminate|]. rewrite LF in E'. rewrite <- SP in E'. eauto. }
      destruct (@first_fails _ _ _ inp off L1 sm_hex R) as [F1 F2]. unfold mj_utf16_string, m_map, m_one. fold m_hex. destruct (m_many1 m_hex inp off) as [o m]. cbn [fst snd up cnt] in *.
      split; [|lia]. destruct o; [destruct F1|exact I..].
    + left. destruct (@first_fails _ _ _ inp off L1 sm_char ltac:(eauto)) as [F1 F2]. unfold mj_char_string, m_map_res, m_one. fold m_char. destruct (m_many1 m_char inp off) as [o m]. cbn [fst snd up cnt] in *. lia.
Qed.
Lemma oa_pieces : off_at not_quote 45 m_pieces.
Proof.
  unfold m_pieces. eapply oa_le; [apply oa_or; [apply oa_map_res, oa_many1, oa_char|]|auto|].
  - apply oa_map, oa_many1. eapply oa_le; [apply oa_hex| |apply le_n]. intros x H. apply N.eqb_eq in H. subst x. reflexivity.
  - lia.
Qed.
Lemma li_string : forall n, lin n 97 3 (mj_string utf8).
Proof.
  intros n. destruct n as [|n]; [intros inp off H1 H2; lia|]. unfold mj_string. fold m_pieces.
  assert (IN : inside (S n) 0 (m_surround (m_elm_ref 34) (m_many0 m_pieces) (m_elm_ref 34))).
  { eapply in_le; [apply in_skip_left; [apply in_elm|apply in_skip_right; [eapply in_rep with (i := 0); [apply in_pieces|exact I]|apply in_elm]]|lia]. }
  eapply li_map; [exact IN|]. apply (@li_group _ unit N N n 97 0 73 0 (m_elm_ref 34) m_pieces None (m_elm_ref 34) 0 1); try discriminate; try reflexivity; try lia.
  - apply in_elm.
  - apply li_elm.
  - apply in_pieces.
  - intros inp off v k L1 L2 E. destruct (@in_pieces n inp off v k L1 L2 E) as [B1 B2]. pose proof (@li_pieces n inp off L1 L2) as H. rewrite E in H. cbn [used] in H. lia.
  - intros inp off L1 L2 Fg. change (cnt (snd (m_elm_ref 34 inp off))) with 1. destruct (skipn off inp) as [|x l] eqn:Q.
    + destruct (@oa_pieces inp off L1) as [_ C]; [rewrite Q; exact I|]. lia.
    + destruct (N.eqb_spec x 34) as [->|Nx].
      * destruct (@oa_pieces inp off L1) as [_ C]; [rewrite Q; reflexivity|]. lia.
      * destruct (@oa_elm 34 inp off L1) as [[e E] _]; [rewrite Q; cbn [hd_not]; apply N.eqb_neq; congruence|]. change (p_elm_ref 34 inp off = Failure e false) in E. change (fst (m_elm_ref 34 inp off)) with (p_elm_ref 34%N inp off). rewrite E. cbn [used].
        pose proof (@li_pieces n inp off L1 L2) as H. assert (U : used (fst (m_pieces inp off)) inp off = length inp - off) by (destruct (fst (m_pieces inp off)); [destruct Fg|reflexivity..]). rewrite U in H. lia.
  - eapply in_le; [apply in_elm|lia].
Qed.
Lemma in_string : forall n, inside n 1 (mj_string utf8).
Proof. intros n. eapply in_hoare; [apply er_string|apply h_string|]. cbv beta. intros v s H. apply string_ne in H. destruct H as [t ->]. cbn. lia. Qed.
Lemma oa_string : off_at (N.eqb 34) 3 (mj_string utf8).
Proof. unfold mj_string, m_surround. eapply oa_le; [apply oa_map, oa_skip_left, oa_elm|auto|lia]. Qed.
Definition num_hd (x : N) : bool := (x =? chr "-")%N || is_ascii_digit x.
Lemma oa_number : off_at num_hd 16 (mj_number f64_parse).
Proof.
  assert (D : off_at num_hd 1 m_digit_ref).
  { eapply oa_rej; [apply er_leaf| |apply sm_leaf]. intros l H. apply r_elm_pred_ref. destruct l as [|x l]; [exact I|]. cbn in *. unfold num_hd in H. apply Bool.orb_false_iff in H. apply H. }
  assert (D19 : off_at num_hd 2 m_digit_1_9_ref) by (apply oa_one; [intros e b inp off; now eexists|exact D]).
  unfold mj_number. apply oa_map_res, oa_map, oa_collect, oa_and, oa_and. eapply oa_le; [apply oa_opt_and with (st := num_hd) (c := 1) (d := 5)|auto|lia].
  - eapply oa_le; [apply oa_elm| |apply le_n]. intros x H. apply N.eqb_eq in H. subst x. reflexivity.
  - unfold mj_integer. eapply oa_le with (st := num_hd); [apply oa_or; [apply oa_skip_right, D19|eapply oa_le; [apply oa_elm| |apply le_n]]|auto|lia]. intros x H. apply N.eqb_eq in H. subst x. reflexivity.
Qed.

(** ** Values *)
Local Notation jv := (mj_value f64_parse utf8).
Definition val_hd (x : N) : bool := is_ascii_digit x || existsb (N.eqb x) (34%N :: bs "-ntf[{").
(** The cost per element, and what a value, an item and the end of a group cost besides. *)
Local Notation per_elm := 600.
Local Notation per_value := 250.
Definition lits : mparser (json F) :=
  m_or (m_or (m_map (m_leaf (lit utf8 (bs "null"))) (fun _ => JNull F)) (m_map (m_leaf (lit utf8 (bs "true"))) (fun _ => JBool F true)))
    (m_map (m_leaf (lit utf8 (bs "false"))) (fun _ => JBool F false)).
Definition lit_hd (x : N) : bool := existsb (N.eqb x) (bs "ntf").
Lemma sm_lits : small 8 lits.
Proof. eapply sm_le; [unfold lits, m_map; sm|]. lia. Qed.
Lemma oa_lits : off_at lit_hd 8 lits.
Proof.
  assert (L : forall c w (v : json F), lit_hd c = true -> off_at lit_hd 2 (m_map (m_leaf (lit utf8 (c :: w))) (fun _ => v))).
  { intros c w v Hc. apply oa_map. eapply oa_rej; [apply er_leaf| |apply sm_leaf]. intros l H. apply r_lit. destruct l as [|x l]; [exact I|]. cbn [hd_not] in H. intros ->. congruence. }
  unfold lits. eapply oa_le with (st := lit_hd); [apply oa_or; [apply oa_or|]|auto|].
  - exact (L (chr "n") (bs "ull") _ eq_refl).
  - exact (L (chr "t") (bs "rue") _ eq_refl).
  - exact (L (chr "f") (bs "alse") _ eq_refl).
  - lia.
Qed.
Lemma in_lits : forall n, inside n 1 lits.
Proof.
  intros n. assert (L : forall w (v : json F), 1 <= length w -> inside n 1 (m_map (m_leaf (lit utf8 w)) (fun _ => v))).
  { intros w v Lw. apply in_map. eapply in_hoare; [apply er_leaf|apply h_lit|]. cbv beta. intros x s [_ ->]. exact Lw. }
  unfold lits. eapply in_le; [apply in_or; [apply in_or|]; apply L; cbn; lia|]. cbn. lia.
Qed.

Lemma in_value : forall n m, n <= m -> inside n 1 (jv m).
Proof.
  intros n m L inp off v k L1 L2 E. rewrite (er_value f64_parse utf8 m inp off) in E. rewrite (ag_value f64_parse utf8 L inp off L2) in E.
  destruct (h_success (h_value_safe f64_parse utf8 n) L1 E) as [B (s0 & w & E1 & Hv & _)]. split; [exact B|]. apply jval_hd in Hv. destruct Hv as (x & t & -> & _).
  assert (Q : length (firstn k (skipn off inp)) = length ((x :: t) ++ w)) by now rewrite E1. rewrite firstn_length, skipn_length in Q. cbn in Q. lia.
Qed.
Lemma or_l : forall a b : bool, a = true -> a || b = true.
Proof. intros a b ->. reflexivity. Qed.
Lemma or_r : forall a b : bool, b = true -> a || b = true.
Proof. intros a b ->. apply Bool.orb_true_r. Qed.

(** The brackets and separators of both examples. *)
Definition good_open {X} (n : nat) (c : N) (g : mparser X) : Prop := inside n 1 g /\ lin n 2 6 g /\ off_at (N.eqb c) 2 g.
Definition good_close {X} (n : nat) (c : N) (g : mparser X) : Prop := inside n 0 g /\ lin n 2 6 g /\ off_at (fun x => wsp x || (c =? x)%N) 6 g /\
  forall inp off w, off <= length inp -> fst (mj_space inp off) = Success tt w -> w <= used (fst (g inp off)) inp off.
Definition good_sep {X} (n : nat) (h : mparser X) : Prop := inside n 1 h /\ lin n 2 11 h /\
  forall inp off, off <= length inp -> fails (fst (h inp off)) -> exists w, fst (mj_space inp off) = Success tt w /\ cnt (snd (h inp off)) <= 2 * w + 7.
Lemma go_and : forall n c, good_open n c (m_and (m_elm_ref c) mj_space).
Proof.
  intros n c. split; [|split].
  - eapply in_le; [apply in_and; [apply in_elm|apply in_space]|lia].
  - apply (@li_and _ _ n 2 1 4 _ _ 1 0); [apply in_elm|apply li_elm'|apply in_space|apply li_space].
  - apply oa_and, oa_elm.
Qed.
Lemma go_skip : forall n c, good_open n c (m_skip_right (m_elm_ref c) mj_space).
Proof.
  intros n c. split; [|split].
  - eapply in_le; [apply in_skip_right; [apply in_elm|apply in_space]|lia].
  - apply (@li_skip_right _ _ n 2 1 4 _ _ 1 0); [apply in_elm|apply li_elm'|apply in_space|apply li_space].
  - apply oa_skip_right, oa_elm.
Qed.
Lemma elm_len : forall c inp off v k, off <= length inp -> p_elm_ref c inp off = Success v k -> off + k <= length inp.
Proof. intros c inp off v k L E. apply (@in_elm (S (length inp - off)) c inp off v k L ltac:(lia)) in E. apply E. Qed.
Lemma gc_and : forall n c, good_close n c (m_and mj_space (m_elm_ref c)).
Proof.
  intros n c. split; [|split; [|split]].
  - eapply in_le; [apply in_and; [apply in_space|apply in_elm]|lia].
  - apply (@li_and _ _ n 2 4 1 _ _ 0 1); [apply in_space|apply li_space|apply in_elm|apply li_elm'].
  - apply (@oa_space _ (m_elm_ref c) _ 1); [eapply oa_le; [apply oa_elm|intros x H; now apply or_r|apply le_n]|intros x H; now apply or_l].
  - intros inp off w L E. destruct (@sp_ok inp off L) as (w' & E' & B & _). rewrite E in E'. inv E'. unfold m_and, m_two. destruct (mj_space inp off) as [o m]. cbn [fst] in E. subst o.
    cbn [m_elm_ref m_leaf fst snd p_and]. destruct (p_elm_ref c inp (off + w')) as [x k|e b| |]; cbn [fst used]; lia.
Qed.
Lemma gc_skip : forall n c, good_close n c (m_skip_left mj_space (m_elm_ref c)).
Proof.
  intros n c. split; [|split; [|split]].
  - eapply in_le; [apply in_skip_left; [apply in_space|apply in_elm]|lia].
  - apply (@li_skip_left _ _ n 2 4 1 _ _ 0 1); [apply in_space|apply li_space|apply in_elm|apply li_elm'].
  - apply (@oa_space _ (m_elm_ref c) _ 1); [eapply oa_le; [apply oa_elm|intros x H; now apply or_r|apply le_n]|intros x H; now apply or_l].
  - intros inp off w L E. destruct (@sp_ok inp off L) as (w' & E' & B & _). rewrite E in E'. inv E'. unfold m_skip_left, m_two. destruct (mj_space inp off) as [o m]. cbn [fst] in E. subst o.
    cbn [m_elm_ref m_leaf fst snd p_skip_left]. destruct (p_elm_ref c inp (off + w')) as [x k|e b| |]; cbn [fst used advance_success add_commit]; try lia.
Qed.
Lemma gs_and : forall n, good_sep n (m_and (m_and mj_space (m_elm_ref (chr ","))) mj_space).
Proof.
  intros n. assert (I1 : inside n 1 (m_and mj_space (m_elm_ref (chr ",")))) by (eapply in_le; [apply in_and; [apply in_space|apply in_elm]|lia]). split; [|split].
  - eapply in_le; [apply in_and; [exact I1|apply in_space]|lia].
  - apply (@li_and _ _ n 2 6 4 _ _ 1 0); [exact I1| |apply in_space|apply li_space]. apply (@li_and _ _ n 2 4 1 _ _ 0 1); [apply in_space|apply li_space|apply in_elm|apply li_elm'].
  - intros inp off L. destruct (@sp_ok inp off L) as (w & E & B & C & _). unfold m_and, m_two. pose proof (fun v k => @elm_len (chr ",") inp (off + w) v k B) as EL.
    destruct (mj_space inp off) as [o m]. cbn [fst snd] in *. subst o. cbn [m_elm_ref m_leaf fst snd]. destruct (p_elm_ref (chr ",") inp (off + w)) as [x k|e b| |].
    + cbn [p_and]. specialize (EL x k eq_refl). destruct (@sp_ok inp (off + (w + k)) ltac:(lia)) as (w2 & E2 & _). destruct (mj_space inp (off + (w + k))) as [o2 m2]. cbn [fst snd] in *. subst o2.
      cbn. contradiction.
    + intros _. exists w. split; [reflexivity|]. cbn. lia.
    + intros _. exists w. split; [reflexivity|]. cbn. lia.
    + intros _. exists w. split; [reflexivity|]. cbn. lia.
Qed.
Lemma gs_skip : forall n, good_sep n (m_skip_right (m_skip_left mj_space (m_elm_ref (chr ","))) mj_space).
Proof.
  intros n. assert (I1 : inside n 1 (m_skip_left mj_space (m_elm_ref (chr ",")))) by (eapply in_le; [apply in_skip_left; [apply in_space|apply in_elm]|lia]). split; [|split].
  - eapply in_le; [apply in_skip_right; [exact I1|apply in_space]|lia].
  - apply (@li_skip_right _ _ n 2 6 4 _ _ 1 0); [exact I1| |apply in_space|apply li_space]. apply (@li_skip_left _ _ n 2 4 1 _ _ 0 1); [apply in_space|apply li_space|apply in_elm|apply li_elm'].
  - intros inp off L. destruct (@sp_ok inp off L) as (w & E & B & C & _). unfold m_skip_right, m_skip_left, m_two. pose proof (fun v k => @elm_len (chr ",") inp (off + w) v k B) as EL.
    destruct (mj_space inp off) as [o m]. cbn [fst snd] in *. subst o. cbn [m_elm_ref m_leaf fst snd]. destruct (p_elm_ref (chr ",") inp (off + w)) as [x k|e b| |].
    + cbn [p_skip_left]. specialize (EL x k eq_refl). destruct (@sp_ok inp (off + (w + k)) ltac:(lia)) as (w2 & E2 & _).
      cbn. destruct (mj_space inp (off + (w + k))) as [o2 m2]. cbn [fst snd] in *. subst o2.
      cbn. contradiction.
    + intros _. exists w. split; [reflexivity|]. cbn. lia.
    + intros _. exists w. split; [reflexivity|]. cbn. lia.
    + intros _. exists w. split; [reflexivity|]. cbn. lia.
Qed.
Lemma li_brackets : forall X Y Z W n B st oc cc (open : mparser W) (g : mparser X) (sep : mparser Y) (close : mparser Z),
  good_open (S n) oc open -> good_close n cc close -> good_sep n sep -> inside n 1 g -> lin n per_elm B g -> B <= 270 -> off_at st 60 g ->
  (forall x, st x = true -> wsp x || (cc =? x)%N = false) ->
  lin (S n) per_elm 7 (m_surround open (m_many0_sep g sep) close).
Proof.
  intros X Y Z W n B st oc cc open g sep close (O1 & O2 & O3) (C1 & C2 & C3 & C4) (S1 & S2 & S3) I1 H1 HB OA DJ.
  apply (@li_group X Y Z W n per_elm B 300 13 open g (Some sep) close 2 6); try assumption; try lia.
  - intros inp off v k L1 L2 E. specialize (H1 inp off L1 L2). now rewrite E in H1.
  - intros h Eh. inv Eh. split; [exact S1|]. intros inp off v k L1 L2 E. specialize (S2 inp off L1 L2). destruct (S1 inp off v k L1 L2 E). rewrite E in S2. cbn [used] in S2. lia.
  - intros inp off L1 L2 Fg. pose proof (C2 inp off L1 L2) as Cc. pose proof (H1 inp off L1 L2) as Cg. destruct (skipn off inp) as [|x l] eqn:Q.
    + destruct (OA inp off L1) as [_ K]; [rewrite Q; exact I|]. lia.
    + destruct (st x) eqn:Sx.
      * destruct (C3 inp off L1) as [[e E] K]; [rewrite Q; now apply DJ|]. rewrite E. cbn [used].
        assert (U : used (fst (g inp off)) inp off = length inp - off) by (destruct (fst (g inp off)); [destruct Fg|reflexivity..]). rewrite U in Cg. lia.
      * destruct (OA inp off L1) as [_ K]; [rewrite Q; exact Sx|]. lia.
  - intros h inp off Eh L1 L2 Fg. inv Eh. pose proof (C2 inp off L1 L2) as Cc. destruct (S3 inp off L1 Fg) as (w & E & K). specialize (C4 inp off w L1 E). lia.
Qed.

Lemma li_empty : forall A a c st (g : mparser A), off_at st c g -> lin 1 a c g.
Proof.
  intros A a c st g H inp off L1 L2. destruct (H inp off L1) as [_ K]; [|lia]. rewrite skipn_all2 by lia. exact I.
Qed.
Lemma apart : forall (st : N -> bool) cc, forallb (fun x => negb (st x)) [32; 9; 13; 10; cc]%N = true -> forall x, st x = true -> wsp x || (cc =? x)%N = false.
Proof.
  intros st cc H x Hx. destruct (wsp x || (cc =? x)%N) eqn:E; [|reflexivity]. rewrite forallb_forall in H. specialize (H x). rewrite Hx in H.
  exfalso. assert (In x [32; 9; 13; 10; cc]%N); [|apply H in H0; discriminate]. apply Bool.orb_true_iff in E. destruct E as [E|E].
  - apply wsp_is in E. cbn in *. tauto.
  - apply N.eqb_eq in E. subst. cbn. tauto.
Qed.
Lemma oa_array : forall p, off_at (N.eqb (chr "[")) 3 (mj_array utf8 p : mparser (list (json F))).
Proof. intros p. unfold mj_array, m_surround. destruct utf8; apply oa_skip_left; apply (go_and 0 (chr "[")) || apply (go_skip 0 (chr "[")). Qed.
Lemma oa_object : forall p, off_at (N.eqb (chr "{")) 4 (mj_object utf8 p : mparser (list (list N * json F))).
Proof. intros p. unfold mj_object, m_surround. apply oa_map, oa_skip_left. apply (go_and 0 (chr "{")). Qed.
Lemma oa_member : forall p, off_at (N.eqb 34) 7 (mj_member utf8 p : mparser (list N * json F)).
Proof. intros p. unfold mj_member. apply oa_and, oa_skip_right, oa_skip_right, oa_skip_right, oa_string. Qed.
Lemma oa_step : forall p, off_at val_hd 50 (mj_value_step f64_parse utf8 p).
Proof.
  intros p. unfold mj_value_step. fold lits. eapply oa_le with (st := val_hd); [apply oa_skip_right, oa_or; [apply oa_or; [apply oa_or; [apply oa_or|]|]|]|auto|].
  - eapply oa_le; [apply oa_lits| |apply le_n]. intros x H. unfold lit_hd in H. rewrite existsb_exists in H. destruct H as (y & H & E). apply N.eqb_eq in E. subst y. cbn in H.
    repeat destruct H as [<-|H]; try reflexivity. destruct H.
  - apply oa_map. eapply oa_le; [apply oa_number| |apply le_n]. intros x H. unfold num_hd in H. apply Bool.orb_true_iff in H. destruct H as [H|H]; [|now apply or_l]. apply N.eqb_eq in H. now subst x.
  - apply oa_map. eapply oa_le; [apply oa_string| |apply le_n]. intros x H. apply N.eqb_eq in H. now subst x.
  - apply oa_map. eapply oa_le; [apply oa_array| |apply le_n]. intros x H. apply N.eqb_eq in H. now subst x.
  - apply oa_map. eapply oa_le; [apply oa_object| |apply le_n]. intros x H. apply N.eqb_eq in H. now subst x.
  - lia.
Qed.
Lemma li_array : forall n m, n <= m -> lin n per_elm per_value (jv m) -> lin (S n) per_elm 7 (mj_array utf8 (jv m)).
Proof.
  intros n m L H. destruct n as [|n]; [eapply li_le; [eapply li_empty, oa_array|apply le_n|lia]|]. destruct m as [|m]; [lia|].
  assert (LZ : lin (S n) per_elm (S per_value) (m_lazy (jv (S m)))) by (eapply li_lazy; [now apply in_value|exact H]).
  assert (OZ : off_at val_hd 60 (m_lazy (jv (S m)))) by (eapply oa_le; [apply oa_lazy, oa_step|auto|lia]).
  assert (IZ : inside (S n) 1 (m_lazy (jv (S m)))) by now apply in_lazy, in_value.
  pose proof (@apart val_hd (chr "]") eq_refl) as D. unfold mj_array. revert LZ OZ IZ. generalize (m_lazy (jv (S m))). intros g LZ OZ IZ. destruct utf8.
  - eapply li_brackets; [apply go_and|apply gc_and|apply gs_and|exact IZ|exact LZ|lia|exact OZ|exact D].
  - eapply li_brackets; [apply go_skip|apply gc_skip|apply gs_skip|exact IZ|exact LZ|lia|exact OZ|exact D].
Qed.
Lemma in_member : forall n m, n <= m -> inside n 1 (mj_member utf8 (jv m)).
Proof.
  intros n m L. unfold mj_member. eapply in_le; [apply in_and; [apply in_skip_right; [apply in_skip_right; [apply in_skip_right; [apply in_string|apply in_space]|apply in_elm]|apply in_space]|apply in_lazy, in_value, L]|]. lia.
Qed.
Lemma li_member : forall n m, n <= m -> lin n per_elm per_value (jv m) -> lin n per_elm 270 (mj_member utf8 (jv m)).
Proof.
  intros n m L H. unfold mj_member.
  assert (I1 : inside n 1 (m_skip_right (mj_string utf8) mj_space)) by (eapply in_le; [apply in_skip_right; [apply in_string|apply in_space]|lia]).
  assert (I2 : inside n 1 (m_skip_right (m_skip_right (mj_string utf8) mj_space) (m_elm_ref (chr ":")))) by (eapply in_le; [apply in_skip_right; [exact I1|apply in_elm]|lia]).
  assert (SP : lin n per_elm 4 mj_space) by (eapply li_le; [apply li_space|lia..]).
  assert (ST : lin n per_elm 3 (mj_string utf8)) by (eapply li_le; [apply li_string|lia..]).
  eapply li_le with (a := per_elm); [eapply li_and; [apply in_skip_right; [exact I2|apply in_space]| |apply in_lazy, in_value, L|eapply li_lazy; [apply in_value, L|exact H]]|lia|].
  - eapply li_skip_right; [exact I2| |apply in_space|exact SP]. eapply li_skip_right; [exact I1| |apply in_elm|apply li_elm']. eapply li_skip_right; [apply in_string|exact ST|apply in_space|exact SP].
  - lia.
Qed.
Lemma li_object : forall n m, n <= m -> lin n per_elm per_value (jv m) -> lin (S n) per_elm 8 (mj_object utf8 (jv m)).
Proof.
  intros n m L H. unfold mj_object. eapply li_map.
  - apply in_two_S with (i := 0); [out_two|apply go_and|]. apply (@in_skip_right _ _ n 0 0); [|apply (gc_and n (chr "}"))]. eapply in_rep; [apply in_member, L|apply (gs_and n)].
  - eapply li_brackets with (st := N.eqb 34); [apply go_and|apply (gc_and n (chr "}"))|apply gs_and|apply in_member, L|apply (@li_member n m L H)|lia|eapply oa_le; [apply oa_member|auto|lia]|].
    exact (@apart (N.eqb 34) (chr "}") eq_refl).
Qed.
Lemma in_object : forall n m, n <= m -> inside (S n) 1 (mj_object utf8 (jv m)).
Proof.
  intros n m L. unfold mj_object. apply in_map, in_two_S with (i := 0); [out_two|apply go_and|]. apply (@in_skip_right _ _ n 0 0); [|apply (gc_and n (chr "}"))]. eapply in_rep; [apply in_member, L|apply (gs_and n)].
Qed.
Lemma in_array : forall n m, n <= m -> inside (S n) 1 (mj_array utf8 (jv m)).
Proof.
  intros n m L. assert (IZ : inside n 1 (m_lazy (jv m))) by now apply in_lazy, in_value. unfold mj_array. revert IZ. generalize (m_lazy (jv m)). intros g IZ. destruct utf8.
  - apply in_two_S with (i := 0); [out_two|apply go_and|]. apply (@in_skip_right _ _ n 0 0); [|apply (gc_and n (chr "]"))]. eapply in_rep; [apply IZ|apply (gs_and n)].
  - apply in_two_S with (i := 0); [out_two|apply go_skip|]. apply (@in_skip_right _ _ n 0 0); [|apply (gc_skip n (chr "]"))]. eapply in_rep; [apply IZ|apply (gs_skip n)].
Qed.
(** Alternatives of a value: two classes of first elements without a common one. *)
Lemma li_value : forall n m, n <= m -> lin n per_elm per_value (jv m).
Proof.
  induction n as [|n IH]; intros m L; [intros inp off H1 H2; lia|]. destruct m as [|m]; [lia|]. cbn [mj_value]. unfold mj_value_step. fold lits.
  assert (L' : n <= m) by lia. pose proof (IH m L') as H.
  assert (SP : lin (S n) per_elm 4 mj_space) by (eapply li_le; [apply li_space|lia..]).
  set (hd2 := fun x => lit_hd x || num_hd x). set (hd3 := fun x => hd2 x || (34 =? x)%N). set (hd4 := fun x => hd3 x || (chr "[" =? x)%N).
  assert (DJ : forall (st : N -> bool) c, st c = false -> forall x, st x = true -> (c =? x)%N = false) by (intros st c Hc x Hx; apply N.eqb_neq; congruence).
  assert (Q1 : off_at lit_hd 8 lits) by apply oa_lits.
  assert (Q2 : off_at num_hd 17 (m_map (mj_number f64_parse) (@JNum F))) by (apply oa_map, oa_number).
  assert (Q3 : off_at (N.eqb 34) 4 (m_map (mj_string utf8) (JStr F))) by (apply oa_map, oa_string).
  assert (Q4 : off_at (N.eqb (chr "[")) 4 (m_map (mj_array utf8 (jv m)) (@JArray F))) by (apply oa_map, oa_array).
  assert (Q5 : off_at (N.eqb (chr "{")) 5 (m_map (mj_object utf8 (jv m)) (@JObject F))) by (apply oa_map, oa_object).
  assert (J1 : inside (S n) 1 lits) by apply in_lits.
  assert (J2 : inside (S n) 1 (m_map (mj_number f64_parse) (@JNum F))) by (apply in_map, in_number).
  assert (J3 : inside (S n) 1 (m_map (mj_string utf8) (JStr F))) by (apply in_map, in_string).
  assert (J4 : inside (S n) 1 (m_map (mj_array utf8 (jv m)) (@JArray F))) by (now apply in_map, in_array).
  assert (J5 : inside (S n) 1 (m_map (mj_object utf8 (jv m)) (@JObject F))) by (now apply in_map, in_object).
  assert (C1 : lin (S n) per_elm 8 lits) by apply li_small, sm_lits.
  assert (C2 : lin (S n) per_elm 62 (m_map (mj_number f64_parse) (@JNum F))) by (eapply li_map; [apply in_number|eapply li_le; [apply li_number|lia..]]).
  assert (C3 : lin (S n) per_elm 4 (m_map (mj_string utf8) (JStr F))) by (eapply li_map; [apply in_string|eapply li_le; [apply li_string|lia..]]).
  assert (C4 : lin (S n) per_elm 8 (m_map (mj_array utf8 (jv m)) (@JArray F))) by (eapply li_map; [now apply in_array|now apply li_array]).
  assert (C5 : lin (S n) per_elm 9 (m_map (mj_object utf8 (jv m)) (@JObject F))) by (eapply li_map; [now apply in_object|now apply li_object]).
  revert Q1 Q2 Q3 Q4 Q5 J1 J2 J3 J4 J5 C1 C2 C3 C4 C5.
  generalize (m_map (mj_object utf8 (jv m)) (@JObject F)) (m_map (mj_array utf8 (jv m)) (@JArray F)) (m_map (mj_string utf8) (JStr F)) (m_map (mj_number f64_parse) (@JNum F)) lits.
  intros g5 g4 g3 g2 g1. intros.
  assert (O2 : off_at hd2 26 (m_or g1 g2)).
  { eapply oa_le with (st := hd2); [apply oa_or; [eapply oa_le; [exact Q1|intros x Hx; now apply or_l|apply le_n]|eapply oa_le; [exact Q2|intros x Hx; now apply or_r|apply le_n]]|auto|lia]. }
  assert (O3 : off_at hd3 31 (m_or (m_or g1 g2) g3)).
  { eapply oa_le with (st := hd3); [apply oa_or; [eapply oa_le; [exact O2|intros x Hx; now apply or_l|apply le_n]|eapply oa_le; [exact Q3|intros x Hx; now apply or_r|apply le_n]]|auto|lia]. }
  assert (O4 : off_at hd4 36 (m_or (m_or (m_or g1 g2) g3) g4)).
  { eapply oa_le with (st := hd4); [apply oa_or; [eapply oa_le; [exact O3|intros x Hx; now apply or_l|apply le_n]|eapply oa_le; [exact Q4|intros x Hx; now apply or_r|apply le_n]]|auto|lia]. }
  assert (D12 : forall x, lit_hd x = true -> num_hd x = false).
  { intros x Hx. unfold lit_hd in Hx. rewrite existsb_exists in Hx. destruct Hx as (y & Hx & E). apply N.eqb_eq in E. subst y. cbn in Hx. repeat destruct Hx as [<-|Hx]; try reflexivity. destruct Hx. }
  eapply li_le with (a := per_elm); [eapply li_skip_right with (j := 1); [eapply in_le; [apply in_or; [apply in_or; [apply in_or; [apply in_or|]|]|]; eassumption|cbn; lia]| |apply in_space|exact SP]|lia|].
  - eapply li_or_apart; [exact O4|exact Q5|apply DJ; reflexivity| |exact C5].
    eapply li_or_apart; [exact O3|exact Q4|apply DJ; reflexivity| |exact C4].
    eapply li_or_apart; [exact O2|exact Q3|apply DJ; reflexivity| |exact C3].
    eapply li_or_apart; [exact Q1|exact Q2|exact D12|exact C1|exact C2].
  - lia.
Qed.
(** The number of closures a run on a text calls. *)
Theorem json_calls : forall inp, cnt (snd (mj_json f64_parse utf8 inp 0)) <= 600 * length inp + 260.
Proof.
  intros inp. assert (SP : lin (S (length inp)) per_elm 4 mj_space) by (eapply li_le; [apply li_space|lia..]).
  assert (I1 : inside (S (length inp)) 0 (m_skip_left mj_space (jv (S (length inp))))) by (eapply in_le; [apply in_skip_left; [apply in_space|now apply in_value]|lia]).
  assert (IE : inside (S (length inp)) 0 (m_leaf (@p_end N))).
  { intros i o v k L1 _ E. split; [|lia]. unfold m_leaf in E. cbn [fst] in E. unfold p_end in E. destruct (ps_input i o) as [[|x l]|]; inv E; lia. }
  assert (H : lin (S (length inp)) per_elm 260 (m_skip_right (m_skip_left mj_space (jv (S (length inp)))) (m_leaf p_end))).
  { eapply li_le with (a := per_elm); [eapply li_skip_right; [exact I1| |exact IE|apply li_small, sm_leaf]|lia|].
    - eapply li_skip_left; [apply in_space|exact SP|now apply in_value|now apply li_value].
    - lia. }
  specialize (H inp 0 ltac:(lia) ltac:(lia)). unfold mj_json.
  assert (U : used (fst (m_skip_right (m_skip_left mj_space (jv (S (length inp)))) (m_leaf p_end) inp 0)) inp 0 <= length inp).
  { pose proof (@in_skip_right _ _ (S (length inp)) 0 0 _ _ I1 IE inp 0) as K. destruct (fst (m_skip_right (m_skip_left mj_space (jv (S (length inp)))) (m_leaf p_end) inp 0)) as [v k|e b| |]; cbn [used]; try lia.
    destruct (K v k ltac:(lia) ltac:(lia) eq_refl). lia. }
  assert (per_elm * used (fst (m_skip_right (m_skip_left mj_space (jv (S (length inp)))) (m_leaf p_end) inp 0)) inp 0 <= per_elm * length inp) by (apply Nat.mul_le_mono_l; exact U). lia.
Qed.
End Parts.
