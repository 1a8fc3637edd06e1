(** Rules for operator chains (chain_left1) in the styles of Hoare.v and Runs.v. *)
From Verif Require Import Base Core Comb Closure RepFacts ChainFacts LitFacts Hoare Runs.
Set Implicit Arguments.

Section Rules.
Context {I : Type}.

Lemma h_rest_left1_fuel : forall A (p : parser I A) (op : parser I (A -> A -> A)) P O (Q : A -> list I -> Prop),
  hoare p P -> hoare op O ->
  (forall f t, O f t -> t <> []) ->
  (forall x s f t y u, Q x s -> O f t -> P y u -> Q (f x y) (s ++ t ++ u)) ->
  forall fuel x s inp off, off <= length inp -> length inp - off < fuel -> Q x s ->
  match rest_left1_fuel fuel p op x inp off with
  | Success v n => off + n <= length inp /\ Q v (s ++ firstn n (skipn off inp))
  | Failure _ _ => True
  | Panic | Diverge => False
  end.
Proof.
  intros A p op P O Q Hp Ho Hn Hq fuel. induction fuel as [|fuel IH]; intros x s inp off Hl Hf Hx; [lia|].
  rewrite rest_left1_step. pose proof (Ho inp off Hl) as L1. destruct (op inp off) as [f n1|e c| |]; try exact L1.
  - destruct L1 as [L1 O1]. pose proof (Hp inp (off + n1) L1) as L2.
    destruct (p inp (off + n1)) as [y n2|e c| |]; try exact L2.
    + destruct L2 as [L2 P2].
      assert (N1 : 0 < n1) by (destruct n1; [now apply Hn in O1|lia]).
      specialize (IH (f x y) (s ++ firstn n1 (skipn off inp) ++ firstn n2 (skipn (off + n1) inp)) inp (off + n1 + n2)
        ltac:(lia) ltac:(lia) (Hq _ _ _ _ _ _ Hx O1 P2)).
      destruct (rest_left1_fuel fuel p op (f x y) inp (off + n1 + n2)) as [v l|e c| |]; try exact IH.
      * destruct IH as [L3 Q3]. split; [lia|].
        replace (l + n2 + n1) with (n1 + (n2 + l)) by lia.
        rewrite !firstn_split. rewrite <- !app_assoc in Q3. exact Q3.
      * destruct (c || negb (n1 =? 0)); [exact Logic.I|]. split; [lia|]. cbn. now rewrite app_nil_r.
    + destruct (c || negb (n1 =? 0)); [exact Logic.I|]. split; [lia|]. cbn. now rewrite app_nil_r.
  - destruct c; [exact Logic.I|]. split; [lia|]. cbn. now rewrite app_nil_r.
Qed.
Lemma h_chain_left1 : forall A (p : parser I A) (op : parser I (A -> A -> A)) P O (Q : A -> list I -> Prop),
  hoare p P -> hoare op O ->
  (forall f t, O f t -> t <> []) ->
  (forall x s, P x s -> Q x s) ->
  (forall x s f t y u, Q x s -> O f t -> P y u -> Q (f x y) (s ++ t ++ u)) ->
  hoare (p_chain_left1 p op) Q.
Proof.
  intros A p op P O Q Hp Ho Hn H0 Hq inp off Hl. unfold p_chain_left1, p_flat_map.
  pose proof (Hp inp off Hl) as L. destruct (p inp off) as [x n|e c| |]; try exact L. destruct L as [L1 P1].
  unfold p_rest_left1.
  pose proof (@h_rest_left1_fuel A p op P O Q Hp Ho Hn Hq (chain_fuel inp (off + n)) x (firstn n (skipn off inp)) inp (off + n) L1
    ltac:(unfold chain_fuel; lia) (H0 _ _ P1)) as R.
  destruct (rest_left1_fuel (chain_fuel inp (off + n)) p op x inp (off + n)) as [v m|e c| |]; cbn; try exact R.
  destruct R as [L2 Q2]. split; [lia|]. replace (m + n) with (n + m) by lia. now rewrite firstn_split.
Qed.

(** The rest of a chain that starts with operator and operand. *)
Lemma a_rest_cons : forall A (p : parser I A) (op : parser I (A -> A -> A)) x f y v s t u rest,
  acc op s (t ++ u ++ rest) f -> acc p t (u ++ rest) y -> acc (p_rest_left1 p op (f x y)) u rest v -> s <> [] ->
  acc (p_rest_left1 p op x) (s ++ t ++ u) rest v.
Proof.
  intros A p op x f y v s t u rest H1 H2 H3 Hs pre. unfold p_rest_left1, chain_fuel.
  rewrite <- !app_assoc. rewrite rest_left1_step. rewrite H1.
  rewrite (acc_next pre s H2).
  specialize (H3 (pre ++ s ++ t)). unfold p_rest_left1 in H3. rewrite <- !app_assoc in H3.
  replace (length pre + length s + length t) with (length (pre ++ s ++ t)) by (rewrite !app_length; lia).
  assert (M : forall fuel fuel' z inp off w l, rest_left1_fuel fuel p op z inp off = Success w l -> fuel <= fuel' ->
    rest_left1_fuel fuel' p op z inp off = Success w l).
  { clear. intros fuel. induction fuel as [|fuel IH]; intros fuel' z inp off w l H Hf; [discriminate|].
    destruct fuel' as [|fuel']; [lia|]. rewrite rest_left1_step in H |- *.
    destruct (op inp off) as [g n1|e c| |]; try discriminate; [|exact H].
    destruct (p inp (off + n1)) as [y n2|e c| |]; try discriminate; [|exact H].
    destruct (rest_left1_fuel fuel p op (g z y) inp (off + n1 + n2)) as [v' l'|e c| |] eqn:E; try discriminate.
    - rewrite (IH fuel' _ _ _ _ _ E) by lia. exact H.
    - apply rest_left1_committed in E. subst c. discriminate. }
  rewrite (M _ _ _ _ _ _ _ H3).
  - f_equal. rewrite !app_length. lia.
  - unfold chain_fuel. rewrite !app_length. destruct s; [congruence|]. cbn [List.length]. lia.
Qed.
Lemma a_rest_nil : forall A (p : parser I A) (op : parser I (A -> A -> A)) x rest,
  rej op rest false -> acc (p_rest_left1 p op x) [] rest x.
Proof.
  intros A p op x rest H pre. unfold p_rest_left1, chain_fuel. rewrite rest_left1_step. destruct (H pre) as [e E]. cbn [app]. now rewrite E.
Qed.
Lemma a_chain_left1 : forall A (p : parser I A) (op : parser I (A -> A -> A)) x v s t rest,
  acc p s (t ++ rest) x -> acc (p_rest_left1 p op x) t rest v -> acc (p_chain_left1 p op) (s ++ t) rest v.
Proof. intros. unfold p_chain_left1. eapply a_flat_map; eassumption. Qed.
Lemma r_chain_left1 : forall A (p : parser I A) (op : parser I (A -> A -> A)) l c, rej p l c -> rej (p_chain_left1 p op) l c.
Proof. intros. unfold p_chain_left1. now apply r_flat_map1. Qed.
(** An operator with no operand behind it: the chain fails committed. *)
Lemma r_rest_dangling : forall A (p : parser I A) (op : parser I (A -> A -> A)) x f s l c,
  acc op s l f -> rej p l c -> s <> [] -> rej (p_rest_left1 p op x) (s ++ l) true.
Proof.
  intros A p op x f s l c H1 H2 Hs pre. unfold p_rest_left1, chain_fuel. rewrite rest_left1_step, H1.
  destruct (rej_next pre s H2) as [e E]. rewrite E. exists e. destruct s; [congruence|]. cbn. now rewrite orb_true_r.
Qed.
End Rules.
