(** C112: the order of queries. *)
From Verif Require Import PropsE PropsN Base Core Comb Closure Text Uri UriSpec UriFacts.
Set Implicit Arguments.
Local Open Scope string_scope.
Local Open Scope nat_scope.
Local Open Scope list_scope.

(** std: Ord for str, the bytes in lexicographic order. *)
Fixpoint str_cmp (a b : bytes) : comparison :=
  match a, b with
  | [], [] => Eq
  | [], _ :: _ => Lt
  | _ :: _, [] => Gt
  | x :: a', y :: b' => match (x ?= y)%N with Eq => str_cmp a' b' | c => c end
  end.
(** query.rs 16-20: PartialOrd for Query; never None. *)
Definition query_cmp (a b : query) : option comparison := Some (str_cmp (show_query a) (show_query b)).
(** query.rs 5: PartialEq is derived. *)
Definition query_eq (a b : query) : Prop := a = b.

(** The spec: [a] is before [b] if they differ first at a place where [a] has a smaller byte or ends. *)
Definition before (a b : bytes) : Prop :=
  (exists x t, b = a ++ x :: t) \/ exists p x y s t, a = p ++ x :: s /\ b = p ++ y :: t /\ (x < y)%N.

Lemma str_cmp_eq : forall a b, str_cmp a b = Eq <-> a = b.
Proof.
  induction a as [|x a IH]; intros [|y b]; cbn; split; intros H; try discriminate; try reflexivity.
  - destruct (N.compare_spec x y) as [->|L|L]; try discriminate. apply IH in H. now subst.
  - inv H. rewrite N.compare_refl. now apply IH.
Qed.
Lemma str_cmp_lt : forall a b, str_cmp a b = Lt <-> before a b.
Proof.
  induction a as [|x a IH]; intros [|y b]; cbn.
  - split; [discriminate|]. intros [(x & t & E)|(p & x & y & s & t & E & _)]; [discriminate|]. destruct p; discriminate.
  - split; [|reflexivity]. intros _. left. exists y, b. reflexivity.
  - split; [discriminate|]. intros [(z & t & E)|(p & z & y & s & t & _ & E & _)]; [discriminate|]. destruct p; discriminate.
  - destruct (N.compare_spec x y) as [->|L|L].
    + rewrite IH. split.
      * intros [(z & t & ->)|(p & z & w & s & t & -> & -> & L)]; [left; exists z, t; reflexivity|right]. exists (y :: p), z, w, s, t. auto.
      * intros [(z & t & E)|(p & z & w & s & t & E1 & E2 & L)]; [inv E; left; eauto|right]. destruct p as [|u p]; cbn in *; inv E1; inv E2; [now apply N.lt_irrefl in L|]. do 5 eexists. eauto.
    + split; [|reflexivity]. intros _. right. exists [], x, y, a, b. auto.
    + split; [discriminate|]. intros [(z & t & E)|(p & z & w & s & t & E1 & E2 & L')]; [inv E; now apply N.lt_irrefl in L|].
      destruct p as [|u p]; cbn in *; inv E1; inv E2; [|now apply N.lt_irrefl in L]. exfalso. apply (N.lt_irrefl z). eapply N.lt_trans; eassumption.
Qed.
Lemma str_cmp_opp : forall a b, str_cmp b a = CompOpp (str_cmp a b).
Proof.
  induction a as [|x a IH]; intros [|y b]; cbn; try reflexivity. rewrite (N.compare_antisym x y), IH. now destruct (x ?= y)%N.
Qed.
Lemma str_cmp_trans : forall a b c, str_cmp a b = Lt -> str_cmp b c = Lt -> str_cmp a c = Lt.
Proof.
  induction a as [|x a IH]; intros [|y b] [|z c]; cbn; try congruence. intros H1 H2.
  destruct (N.compare_spec x y) as [->|L|L]; try discriminate.
  - destruct (N.compare_spec y z) as [->|L'|L']; try discriminate; [now apply IH with b|reflexivity].
  - assert (E : (x < z)%N).
    { destruct (N.compare_spec y z) as [<-|L'|L']; try discriminate; [exact L|eapply N.lt_trans; eassumption]. }
    apply N.compare_lt_iff in E. now rewrite E.
Qed.

(** C112: the order of two queries is the order of their texts; any two are comparable, and the order is transitive. *)
Theorem C112_order : forall a b, exists c, query_cmp a b = Some c /\
  query_cmp b a = Some (CompOpp c) /\ (c = Lt <-> before (show_query a) (show_query b)) /\ (c = Eq <-> show_query a = show_query b) /\
  (forall d, c = Lt -> query_cmp b d = Some Lt -> query_cmp a d = Some Lt).
Proof.
  intros a b. exists (str_cmp (show_query a) (show_query b)). split; [reflexivity|]. unfold query_cmp. split; [f_equal; apply str_cmp_opp|].
  split; [apply str_cmp_lt|]. split; [apply str_cmp_eq|]. intros d H1 H2. inv H2. f_equal. rewrite H0. now apply str_cmp_trans with (show_query b).
Qed.
(** C112: equal for == means equal in the order, but not conversely: PartialOrd and PartialEq disagree. *)
Theorem C112_equal_refuted : exists a b, query_cmp a b = Some Eq /\ ~ query_eq a b.
Proof. exists [(bs "a=b", None)], [(bs "a", Some (bs "b"))]. split; [reflexivity|discriminate]. Qed.
Theorem C112_empty_refuted : query_cmp [] [([], None)] = Some Eq /\ ~ query_eq [] [([], None)].
Proof. split; [reflexivity|discriminate]. Qed.

(** Queries that can be read back from their texts *)
Definition clean_param (kv : bytes * option bytes) : Prop :=
  ~ In (chr "=") (fst kv) /\ ~ In (chr "&") (fst kv) /\ match snd kv with Some v => ~ In (chr "&") v | None => True end.
Definition clean_query (q : query) : Prop := q <> [] /\ Forall clean_param q.
Lemma cut_unique : forall (c : N) a a' b b', ~ In c a -> ~ In c a' -> a ++ c :: b = a' ++ c :: b' -> a = a' /\ b = b'.
Proof.
  induction a as [|x a IH]; intros [|y a'] b b' H H' E; cbn in *.
  - now inv E.
  - inv E. exfalso. apply H'. now left.
  - inv E. exfalso. apply H. now left.
  - inv E. destruct (IH a' b b') as [-> ->]; auto.
Qed.
Lemma show_param_inj : forall x y, clean_param x -> clean_param y -> show_param x = show_param y -> x = y.
Proof.
  intros [k v] [k' v'] (H1 & H2 & H3) (H1' & H2' & H3') E. unfold show_param in E. cbn [fst snd] in *. destruct v as [v|], v' as [v'|].
  - destruct (@cut_unique (chr "=") k k' v v' H1 H1' E) as [-> ->]. reflexivity.
  - exfalso. apply H1'. rewrite <- E. apply in_or_app. right. now left.
  - exfalso. apply H1. rewrite E. apply in_or_app. right. now left.
  - now subst.
Qed.
Lemma show_param_free : forall x, clean_param x -> ~ In (chr "&") (show_param x).
Proof.
  intros [k [v|]] (H1 & H2 & H3); cbn in *; [|exact H2]. intros H. apply in_app_or in H as [H|[H|H]]; [auto|discriminate H|auto].
Qed.
Lemma show_query_inj : forall a b, clean_query a -> clean_query b -> show_query a = show_query b -> a = b.
Proof.
  intros a b [Na Ha] [Nb Hb]. revert b Nb Hb. unfold show_query. induction a as [|x a IH]; [congruence|]. intros [|y b] Nb Hb E; [congruence|]. clear Na Nb.
  inv Ha. inv Hb. pose proof (show_param_free H1) as Fx. pose proof (show_param_free H3) as Fy.
  destruct a as [|x' a], b as [|y' b]; cbn [map join] in E.
  - f_equal. now apply show_param_inj.
  - exfalso. apply Fx. rewrite E. apply in_or_app. right. now left.
  - exfalso. apply Fy. rewrite <- E. apply in_or_app. right. now left.
  - apply cut_unique in E; [|exact Fx|exact Fy]. destruct E as [E1 E2]. f_equal; [now apply show_param_inj|]. apply IH; auto; discriminate.
Qed.
(** C112, restricted to nonempty queries whose keys are free of = and & and whose values are free of &: the order agrees with ==. *)
Theorem C112_equal_partial : forall a b, clean_query a -> clean_query b -> (query_cmp a b = Some Eq <-> query_eq a b).
Proof.
  intros a b Ha Hb. split; intros H.
  - inv H. apply str_cmp_eq in H1. now apply show_query_inj.
  - inv H. unfold query_cmp. f_equal. now apply str_cmp_eq.
Qed.
Lemma parsed_params : forall q t, g_params q t -> clean_query q.
Proof.
  assert (P : forall kv s, g_param kv s -> clean_param kv).
  { assert (Fr : forall k t, In k (bs "=&") -> enc c_query t -> ~ In k t).
    { intros k t Hk H. apply (free_enc H); vm_compute in Hk; destruct Hk as [<-|[<-|[]]]; unfold c_query, c_pchar, hexdig; vm_compute; intuition; discriminate. }
    intros kv s H. destruct H as [a Ha|a v Ha Hv]; repeat split; cbn [fst snd]; try (eapply Fr; [|eassumption]; vm_compute; tauto). }
  intros q t H. induction H as [kv s K|kv s q t K _ [_ IH]]; (split; [discriminate|]); constructor; eauto.
Qed.
(** C112: the queries of parsed URIs are such queries. *)
Theorem C112_parsed : forall v6_parse text u n q, uri_parse v6_parse text = Success u n -> u_query u = Some q -> clean_query q.
Proof.
  intros v6_parse text u n q H Hq. apply uri_success in H. destruct H as [_ H]. inv H. cbn in Hq. subst.
  match goal with K : g_opt _ (Some q) _ |- _ => inv K end. match goal with K : exists t, g_params q t /\ _ |- _ => destruct K as (t & Ht & _) end. now apply parsed_params in Ht.
Qed.
Example C112_example :
  query_cmp [(bs "a", Some (bs "b=c")); (bs "d", None)] [(bs "a", Some (bs "b"))] = Some Gt /\
  clean_query [(bs "a", Some (bs "b=c")); (bs "d", None)] /\ clean_query [(bs "a", Some (bs "b"))] /\
  (exists u n, uri_parse (fun _ => inr tt) (bs "x:y?a=b&c") = Success u n /\ u_query u = Some [(bs "a", Some (bs "b")); (bs "c", None)]).
Proof.
  split; [reflexivity|]. split; [|split].
  - split; [discriminate|]. repeat constructor; vm_compute; intuition discriminate.
  - split; [discriminate|]. repeat constructor; vm_compute; intuition discriminate.
  - do 2 eexists. split; vm_compute; reflexivity.
Qed.
Print Assumptions C112_order.
Print Assumptions C112_equal_refuted.
Print Assumptions C112_empty_refuted.
Print Assumptions C112_equal_partial.
Print Assumptions C112_parsed.
