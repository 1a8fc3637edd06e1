(** Operator chains: relational specification, soundness, completeness, fuel adequacy. *)
From Verif Require Import Base Core Comb Closure.
Set Implicit Arguments.

(** ** Specification vocabulary *)
(** [chain_rest p op inp pos fys l]: from [pos], (operator operand)* matched successively gives the pairs [fys], in total
    [l] elements. *)
Inductive chain_rest {I A} (p : parser I A) (op : parser I (A -> A -> A)) (inp : list I)
  : nat -> list ((A -> A -> A) * A) -> nat -> Prop :=
| cr_nil : forall pos, chain_rest p op inp pos [] 0
| cr_cons : forall pos f n1 y n2 fys m,
    op inp pos = Success f n1 -> p inp (pos + n1) = Success y n2 ->
    chain_rest p op inp (pos + n1 + n2) fys m -> chain_rest p op inp pos ((f, y) :: fys) (n1 + n2 + m).

(** ((x f1 y1) f2 y2) ... *)
Definition left_fold {A} (x : A) (fys : list ((A -> A -> A) * A)) : A :=
  fold_left (fun acc fy => fst fy acc (snd fy)) fys x.

(** x f1 (y1 f2 (y2 ...)) *)
Fixpoint right_fold {A} (x : A) (fys : list ((A -> A -> A) * A)) : A :=
  match fys with
  | [] => x
  | (f, y) :: r => f x (right_fold y r)
  end.

(** No further (operator operand) pair and nothing committed: the chain ends here. *)
Definition chain_ends {I A} (p : parser I A) (op : parser I (A -> A -> A)) inp pos : Prop :=
  (exists e, op inp pos = Failure e Uncommitted) \/
  (exists f e, op inp pos = Success f 0 /\ p inp pos = Failure e Uncommitted).

(** The chain breaks here: a committed failure, or an operator that consumed input without operand. *)
Definition chain_breaks {I A} (p : parser I A) (op : parser I (A -> A -> A)) inp pos (e : perror I) : Prop :=
  op inp pos = Failure e Committed \/
  (exists f n c, op inp pos = Success f n /\ p inp (pos + n) = Failure e c /\ (c = Committed \/ 0 < n)).

(** ** The recursion *)
Lemma rest_left1_step : forall I A fuel (p : parser I A) op x inp off,
  rest_left1_fuel (S fuel) p op x inp off =
  match op inp off with
  | Success f n1 =>
      match p inp (off + n1) with
      | Success y n2 =>
          match rest_left1_fuel fuel p op (f x y) inp (off + n1 + n2) with
          | Success v l => Success v (l + n2 + n1)
          | Failure e c => if c || negb (n1 =? 0) then Failure e Committed else Success x 0
          | Panic => Panic
          | Diverge => Diverge
          end
      | Failure e c => if c || negb (n1 =? 0) then Failure e Committed else Success x 0
      | Panic => Panic
      | Diverge => Diverge
      end
  | Failure e c => if c then Failure e Committed else Success x 0
  | Panic => Panic
  | Diverge => Diverge
  end.
Proof.
  intros. cbn [rest_left1_fuel]. unfold p_or, p_successful.
  destruct (op inp off) as [f n1|e [|]| |]; try reflexivity.
  destruct (p inp (off + n1)) as [y n2|e c| |]; try reflexivity.
  - destruct (rest_left1_fuel fuel p op (f x y) inp (off + n1 + n2)) as [v l|e c| |]; try reflexivity.
    cbn. destruct c, n1; reflexivity.
  - cbn. destruct c, n1; reflexivity.
Qed.

Lemma rest_left1_committed : forall I A fuel (p : parser I A) op x inp off e c,
  rest_left1_fuel fuel p op x inp off = Failure e c -> c = Committed.
Proof.
  intros I A fuel p op x inp off e c H. destruct fuel as [|fuel]; [discriminate|].
  rewrite rest_left1_step in H. mdestr H; inv H; reflexivity.
Qed.

Lemma rest_left1_sound : forall I A (p : parser I A) op inp fuel x off v l,
  rest_left1_fuel fuel p op x inp off = Success v l ->
  exists fys, chain_rest p op inp off fys l /\ chain_ends p op inp (off + l) /\ v = left_fold x fys.
Proof.
  intros I A p op inp fuel. induction fuel as [|fuel IH]; intros x off v l H; [discriminate|].
  rewrite rest_left1_step in H.
  destruct (op inp off) as [f n1|e c| |] eqn:E1; try discriminate.
  - destruct (p inp (off + n1)) as [y n2|e c| |] eqn:E2; try discriminate.
    + destruct (rest_left1_fuel fuel p op (f x y) inp (off + n1 + n2)) as [v' l'|e c| |] eqn:E3; try discriminate.
      * inv H. destruct (IH _ _ _ _ E3) as (fys & H1 & H2 & ->). exists ((f, y) :: fys).
        replace (l' + n2 + n1) with (n1 + n2 + l') by lia. repeat split.
        -- econstructor; eauto.
        -- now replace (off + (n1 + n2 + l')) with (off + n1 + n2 + l') by lia.
      * apply rest_left1_committed in E3. subst c. discriminate.
    + destruct c; [discriminate|]. destruct n1 as [|n1]; [|discriminate]. inv H.
      exists []. rewrite Nat.add_0_r in *. repeat split; [constructor|]. right. eauto.
  - destruct c; [discriminate|]. inv H. exists []. rewrite Nat.add_0_r. repeat split; [constructor|]. left. eauto.
Qed.

Lemma rest_left1_sound_fail : forall I A (p : parser I A) op inp fuel x off e c,
  rest_left1_fuel fuel p op x inp off = Failure e c ->
  c = Committed /\ exists fys l, chain_rest p op inp off fys l /\ chain_breaks p op inp (off + l) e.
Proof.
  intros I A p op inp fuel. induction fuel as [|fuel IH]; intros x off e c H; [discriminate|].
  split; [exact (rest_left1_committed _ _ _ _ _ _ H)|]. rewrite rest_left1_step in H.
  destruct (op inp off) as [f n1|e1 c1| |] eqn:E1; try discriminate.
  - destruct (p inp (off + n1)) as [y n2|e2 c2| |] eqn:E2; try discriminate.
    + destruct (rest_left1_fuel fuel p op (f x y) inp (off + n1 + n2)) as [v' l'|e3 c3| |] eqn:E3; try discriminate.
      destruct (c3 || negb (n1 =? 0)) eqn:Ec; [|discriminate]. inv H.
      destruct (IH _ _ _ _ E3) as (_ & fys & l & H1 & H2). exists ((f, y) :: fys), (n1 + n2 + l). split.
      * econstructor; eauto.
      * now replace (off + (n1 + n2 + l)) with (off + n1 + n2 + l) by lia.
    + destruct (c2 || negb (n1 =? 0)) eqn:Ec; [|discriminate]. inv H.
      exists [], 0. rewrite Nat.add_0_r. split; [constructor|]. right. exists f, n1, c2. repeat split; auto.
      destruct c2; [now left|right]. destruct n1; [discriminate|lia].
  - destruct c1; [|discriminate]. inv H. exists [], 0. rewrite Nat.add_0_r. split; [constructor|]. now left.
Qed.

Lemma rest_left1_complete : forall I A (p : parser I A) op inp off fys l,
  chain_rest p op inp off fys l -> chain_ends p op inp (off + l) ->
  forall fuel x, length fys < fuel -> rest_left1_fuel fuel p op x inp off = Success (left_fold x fys) l.
Proof.
  intros I A p op inp off fys l H. induction H; intros He fuel x Hf; (destruct fuel as [|fuel]; [cbn in Hf; lia|]);
    rewrite rest_left1_step.
  - rewrite Nat.add_0_r in He. destruct He as [[e He]|(f & e & He1 & He2)].
    + now rewrite He.
    + rewrite He1, Nat.add_0_r, He2. reflexivity.
  - rewrite H, H0, IHchain_rest; [cbn; f_equal; lia| |cbn in Hf; lia].
    now replace (pos + n1 + n2 + m) with (pos + (n1 + n2 + m)) by lia.
Qed.

Lemma rest_left1_complete_fail : forall I A (p : parser I A) op inp off fys l e,
  chain_rest p op inp off fys l -> chain_breaks p op inp (off + l) e ->
  forall fuel x, length fys < fuel -> rest_left1_fuel fuel p op x inp off = Failure e Committed.
Proof.
  intros I A p op inp off fys l e H. induction H; intros He fuel x Hf; (destruct fuel as [|fuel]; [cbn in Hf; lia|]);
    rewrite rest_left1_step.
  - rewrite Nat.add_0_r in He. destruct He as [He|(f & n & c & He1 & He2 & He3)].
    + now rewrite He.
    + rewrite He1, He2. destruct He3 as [->|He3]; [reflexivity|]. destruct n; [lia|]. now destruct c.
  - rewrite H, H0, IHchain_rest; [reflexivity| |cbn in Hf; lia].
    now replace (pos + n1 + n2 + m) with (pos + (n1 + n2 + m)) by lia.
Qed.

(** ** Fuel *)
Lemma rest_left1_zero : forall I A (p : parser I A) op inp pos f y,
  op inp pos = Success f 0 -> p inp pos = Success y 0 ->
  forall fuel x, rest_left1_fuel fuel p op x inp pos = Diverge.
Proof.
  intros I A p op inp pos f y H1 H2 fuel. induction fuel as [|fuel IH]; intros x; [reflexivity|].
  rewrite rest_left1_step, H1, Nat.add_0_r, H2, Nat.add_0_r, IH. reflexivity.
Qed.

Lemma chain_rest_length : forall I A (p : parser I A) op inp off fys l,
  bounded p -> bounded op -> chain_rest p op inp off fys l -> off <= length inp ->
  off + l <= length inp /\
  (chain_ends p op inp (off + l) \/ (exists e, chain_breaks p op inp (off + l) e) -> length fys <= length inp - off).
Proof.
  intros I A p op inp off fys l Hp Hop H. induction H; intros Ho.
  - cbn. lia.
  - pose proof (Hop _ _ _ _ Ho H) as B1. pose proof (Hp _ _ _ _ B1 H0) as B2.
    destruct (IHchain_rest B2) as [L1 L2]. split; [lia|].
    replace (pos + (n1 + n2 + m)) with (pos + n1 + n2 + m) by lia. intros He.
    specialize (L2 He). cbn [List.length].
    destruct (Nat.eq_dec (n1 + n2) 0) as [Z|Z]; [|lia].
    assert (n1 = 0) by lia. assert (n2 = 0) by lia. subst. rewrite !Nat.add_0_r in *.
    pose proof (@rest_left1_zero _ _ p op inp pos f y H H0) as D. exfalso. destruct He as [He|[e He]].
    + pose proof (rest_left1_complete H1 He (fuel := S (length fys)) y) as X. rewrite D in X. discriminate X. lia.
    + pose proof (rest_left1_complete_fail H1 He (fuel := S (length fys)) y) as X. rewrite D in X. discriminate X. lia.
Qed.

(** Any fuel at least the default one gives the same answer; a [Diverge] at the default fuel persists. *)
Lemma rest_left1_fuel_adequate : forall I A (p : parser I A) op inp,
  bounded p -> bounded op -> forall K off x, off <= length inp ->
  rest_left1_fuel K p op x inp off <> Diverge ->
  forall F, F >= chain_fuel inp off ->
  rest_left1_fuel F p op x inp off = rest_left1_fuel K p op x inp off.
Proof.
  intros I A p op inp Hp Hop K. induction K as [|K IH]; intros off x Ho H F HF; [cbn in H; congruence|].
  unfold chain_fuel in HF. destruct F as [|F]; [lia|]. rewrite !rest_left1_step in *.
  destruct (op inp off) as [f n1|e1 c1| |] eqn:E1; try reflexivity.
  destruct (p inp (off + n1)) as [y n2|e2 c2| |] eqn:E2; try reflexivity.
  pose proof (Hop _ _ _ _ Ho E1) as B1. pose proof (Hp _ _ _ _ B1 E2) as B2.
  destruct (Nat.eq_dec (n1 + n2) 0) as [Z|Z].
  - assert (n1 = 0) by lia. assert (n2 = 0) by lia. subst. rewrite !Nat.add_0_r in *.
    exfalso. apply H. rewrite (@rest_left1_zero _ _ p op inp off f y E1 E2). reflexivity.
  - rewrite (IH (off + n1 + n2) (f x y) B2); [reflexivity| |unfold chain_fuel; lia].
    intros D. apply H. now rewrite D.
Qed.

(** ** chain_left1 *)
Lemma chain_left1_success : forall I A (p : parser I A) op inp off v l,
  bounded p -> bounded op -> off <= length inp ->
  p_chain_left1 p op inp off = Success v l <->
  exists x n fys m, p inp off = Success x n /\ chain_rest p op inp (off + n) fys m /\
    chain_ends p op inp (off + n + m) /\ v = left_fold x fys /\ l = n + m.
Proof.
  intros I A p op inp off v l Hp Hop Ho. unfold p_chain_left1, p_flat_map, p_rest_left1. split.
  - intros H. destruct (p inp off) as [x n|e c| |] eqn:E; try discriminate.
    destruct (rest_left1_fuel _ p op x inp (off + n)) as [v' l'|e c| |] eqn:R; try discriminate.
    cbn in H. inv H. apply rest_left1_sound in R. destruct R as (fys & H1 & H2 & ->).
    exists x, n, fys, l'. repeat split; auto. lia.
  - intros (x & n & fys & m & H & H1 & H2 & -> & ->). rewrite H.
    pose proof (Hp _ _ _ _ Ho H) as B1.
    destruct (chain_rest_length Hp Hop H1 B1) as [_ L].
    rewrite (rest_left1_complete H1 H2); [cbn; f_equal; lia|].
    unfold chain_fuel. specialize (L (or_introl H2)). lia.
Qed.

Lemma chain_left1_failure : forall I A (p : parser I A) op inp off e c,
  bounded p -> bounded op -> off <= length inp ->
  p_chain_left1 p op inp off = Failure e c <->
  p inp off = Failure e c \/
  (c = Committed /\ exists x n fys m, p inp off = Success x n /\ chain_rest p op inp (off + n) fys m /\
    chain_breaks p op inp (off + n + m) e).
Proof.
  intros I A p op inp off e c Hp Hop Ho. unfold p_chain_left1, p_flat_map, p_rest_left1. split.
  - intros H. destruct (p inp off) as [x n|e' c'| |] eqn:E; try discriminate; [|left; exact H].
    right. destruct (rest_left1_fuel _ p op x inp (off + n)) as [v' l'|e' c'| |] eqn:R; try discriminate.
    apply rest_left1_sound_fail in R. destruct R as (-> & fys & l & H1 & H2).
    cbn in H. inv H. split; [reflexivity|]. eauto 8.
  - intros [H|(-> & x & n & fys & m & H & H1 & H2)]; [now rewrite H|]. rewrite H.
    pose proof (Hp _ _ _ _ Ho H) as B1.
    destruct (chain_rest_length Hp Hop H1 B1) as [_ L].
    rewrite (rest_left1_complete_fail H1 H2); [reflexivity|].
    unfold chain_fuel. specialize (L (or_intror (ex_intro _ e H2))). lia.
Qed.

(** Associative operators do not care. *)
Lemma right_fold_assoc : forall A (f : A -> A -> A), (forall a b c, f a (f b c) = f (f a b) c) ->
  forall fys x, Forall (fun fy => fst fy = f) fys -> right_fold x fys = left_fold x fys.
Proof.
  intros A f Ha fys. unfold left_fold.
  assert (G : forall fys x y, Forall (fun fy : (A -> A -> A) * A => fst fy = f) fys ->
            f x (right_fold y fys) = right_fold (f x y) fys).
  { clear fys. induction fys as [|[g z] fys IH]; intros x y H; cbn; [reflexivity|].
    apply Forall_cons_iff in H. destruct H as [Hg Hr]. cbn in Hg. subst g. apply Ha. }
  induction fys as [|[g y] fys IH]; intros x H; cbn; [reflexivity|].
  apply Forall_cons_iff in H. destruct H as [Hg Hr]. cbn in Hg. subst g. rewrite G by assumption. now apply IH.
Qed.
