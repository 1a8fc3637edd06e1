(** C72 in full and C113: chains of configuration values. *)
From Verif Require Import PropsH Base Core Comb Closure Text Hoare Runs Hocon HoconFacts HoconParse HoconLookup HoconResolve.
Set Implicit Arguments.
Local Open Scope string_scope.
Local Open Scope nat_scope.
Local Open Scope list_scope.

(** C72, the exact value after any number of earlier values: the last but one of them if there are two or more, the only one if there is one. *)
Lemma prev_latest_nth : forall D (v : cv D), prev_latest v = nth (length (to_vec v) - 2) (to_vec v) CNull.
Proof.
  intros D v. destruct v as [| | | | | | | | | |p x]; try reflexivity. change (to_vec (CLink p x)) with (to_vec p ++ [x]).
  rewrite app_length. cbn [length prev_latest]. destruct p as [| | | | | | | | | |p y]; try reflexivity.
  change (to_vec (CLink p y)) with (to_vec p ++ [y]). rewrite app_length. cbn [length].
  rewrite app_nth1 by (rewrite app_length; cbn [length]; lia). rewrite app_nth2 by lia. now replace (length (to_vec p) + 1 + 1 - 2 - length (to_vec p)) with 0 by lia.
Qed.
Theorem C72_exact : forall D (dec : list N -> option D) env files (v src : cv D) path, noref v -> not_found env src path ->
  exists n, forall fuel, n <= fuel -> exists c, resolve dec env files fuel (push v (CRef None path true)) (Some src) = ROk c /\
    to_vec c = to_vec v ++ [nth (length (to_vec v) - 2) (to_vec v) CNull].
Proof.
  intros D dec env files v src path Hv [Hg He]. rewrite <- prev_latest_nth. destruct (noref_settles dec env files Hv) as [_ S].
  destruct (settles_all S src) as [n Hn]. exists (Datatypes.S (Datatypes.S n)). intros [|[|fuel]] Hf; try lia.
  set (f := Datatypes.S fuel) in *. specialize (Hn f ltac:(lia)).
  assert (R : resolve dec env files f (CRef (Some v) path true) (Some src) = ROk (prev_latest v)).
  { unfold f. cbn [resolve resolve_step]. rewrite Hg. cbn [rbind]. now rewrite He. }
  assert (Nv : Forall (fun x : cv D => noref x) (to_vec v)).
  { clear - Hv. induction Hv; try (constructor; [now constructor|constructor]).
    change (to_vec (CLink p v)) with (to_vec p ++ [v]). apply Forall_app. split; [assumption|]. constructor; [assumption|constructor]. }
  assert (Pl : Forall (@plain D) (to_vec v)) by (eapply Forall_impl; [|exact Nv]; intros x; apply noref_plain).
  assert (Np : noref (prev_latest v)).
  { rewrite prev_latest_nth. rewrite Forall_forall in Nv. apply Nv, nth_In. destruct v; cbn; try lia. unfold to_vec. cbn. rewrite app_length. cbn. lia. }
  exists (CLink v (prev_latest v)). split; [|reflexivity]. change (push v (CRef None path true)) with (CLink v (CRef (Some v) path true)).
  pose proof (@refold D v) as Rf. cbn [resolve resolve_step]. change (to_vec (CLink v (CRef (Some v) path true))) with (to_vec v ++ [CRef (Some v) path true]).
  destruct (to_vec v) as [|h t] eqn:Et; [contradiction Rf; constructor|]. inv Hn. inv Pl. cbn [app]. fold f. rewrite H1. cbn [rbind].
  assert (M : rmap (fun e => resolve dec env files f e (Some src)) (t ++ [CRef (Some v) path true]) = ROk (t ++ [prev_latest v])).
  { clear - H2 R. induction H2 as [|x t Hx H IH]; cbn [app rmap]; [rewrite R; reflexivity|]. rewrite Hx. cbn [rbind]. rewrite IH. reflexivity. }
  rewrite M. cbn [rbind]. rewrite fold_left_app. cbn [fold_left]. rewrite Rf by assumption. f_equal. apply push_plain. now apply noref_plain.
Qed.
(** In a document: three values, then a reference to nothing. *)
Example C72_exact_case : exists c v, load (bs "o { k = true, k = false, k = 7, k = ${?zz} }") = ROk (Some c) /\
  get_value c (bs "o.k") = ROk (Some v) /\ v = CBool false.
Proof. do 2 eexists. split; [vm_compute; reflexivity|]. split; vm_compute; reflexivity. Qed.
Print Assumptions C72_exact.

(** ** C113: combining *)
(** config_object_value.rs 24-37: Monoid for ConfigObjectValue; [b] is visited in the order of its entries. *)
Definition combine_maps {D} (a b : list (list N * cv D)) : list (list N * cv D) :=
  fold_left (fun m kv => match hm_get m (fst kv) with
                         | None => hm_set m (fst kv) (snd kv)
                         | Some old => hm_set m (fst kv) (combine old (snd kv))
                         end) b a.
(** config_array_value.rs 15-19: Monoid for ConfigArrayValue. *)
Definition combine_arrays {D} (a b : list (cv D)) : list (cv D) := a ++ b.

(** The same value; a reference may remember another previous value. *)
Definition same_value {D} (a b : cv D) : Prop :=
  match a, b with CRef _ p m, CRef _ q n => p = q /\ m = n | _, _ => a = b end.
(** C113: combining with a chain adds the values of the chain, in order, behind those that are there. *)
Theorem C113_chain_added : forall D (v p x : cv D),
  Forall2 same_value (to_vec (combine v (CLink p x))) (to_vec v ++ to_vec (CLink p x)).
Proof.
  intros D v p x. unfold combine. generalize (to_vec (CLink p x)) as l. clear p x. assert (Rf : forall a : cv D, same_value a a) by (intros []; now cbn).
  assert (Rl : forall a : list (cv D), Forall2 same_value a a) by (intros a; induction a; constructor; auto).
  intros l. revert v. induction l as [|y l IH]; intros v; cbn [fold_left].
  - rewrite app_nil_r. apply Rl.
  - replace (to_vec v ++ y :: l) with ((to_vec v ++ [y]) ++ l) by now rewrite <- app_assoc.
    pose proof (IH (push v y)) as H. rewrite to_vec_push in H.
    assert (T : Forall2 same_value (to_vec v ++ [latest (push v y)]) (to_vec v ++ [y])).
    { apply Forall2_app; [apply Rl|]. constructor; [|constructor]. unfold push. cbn [latest]. destruct y; cbn; auto. }
    clear IH. revert H T. generalize (to_vec (fold_left (@push D) l (push v y))) as w. generalize (to_vec v ++ [latest (push v y)]) as a. generalize (to_vec v ++ [y]) as b.
    intros b a w H T. revert w H. induction T as [|s t a b Hs T IH]; intros w H; [exact H|]. inv H. constructor; [|now apply IH].
    destruct x as [| | | | | | | |? ? ?| |], s as [| | | | | | | |? ? ?| |], t as [| | | | | | | |? ? ?| |]; cbn in *; intuition congruence.
Qed.
(** C113: combining keeps the values of both is false: a value that is not a chain is dropped. *)
Theorem C113_value_dropped : forall D (v w : cv D), (forall p x, w <> CLink p x) -> combine v w = v.
Proof. intros D v w H. destruct w; try reflexivity. now destruct (H w1 w2). Qed.
Theorem C113_keeps_both_refuted : forall D, exists v w : cv D, ~ exists x, In x (to_vec (combine v w)) /\ same_value x w.
Proof. intros D. exists (CBool true), CNull. cbn. intros (x & [<-|[]] & K). discriminate. Qed.
(** C113: objects are combined key by key, arrays are joined. *)
Theorem C113_objects : forall D (a b : list (list N * cv D)), NoDup (keys b) -> forall k,
  hm_get (combine_maps a b) k =
  match hm_get a k, hm_get b k with
  | Some x, Some y => Some (combine x y)
  | Some x, None => Some x
  | None, y => y
  end.
Proof.
  intros D a b Hn k. unfold combine_maps. revert a. induction b as [|[k0 v] b IH]; intros a; cbn [fold_left].
  - cbn. now destruct (hm_get a k).
  - cbn in Hn. inv Hn. rewrite IH by assumption. clear IH. cbn [fst snd hm_get].
    destruct (list_eq_dec N.eq_dec k k0) as [->|Hk].
    + apply get_none in H1. rewrite H1. destruct (hm_get a k0) eqn:E; rewrite hm_get_set; destruct (list_eq_dec N.eq_dec k0 k0); congruence.
    + destruct (hm_get a k0) eqn:E; rewrite hm_get_set; destruct (list_eq_dec N.eq_dec k k0); congruence.
Qed.
Theorem C113_arrays : forall D (a b : list (cv D)) n, nth_error (combine_arrays a b) n =
  if n <? length a then nth_error a n else nth_error b (n - length a).
Proof.
  intros D a b n. unfold combine_arrays. destruct (Nat.ltb_spec n (length a)); [now apply nth_error_app1|now apply nth_error_app2].
Qed.
(** C113: contains is membership among the keys of an object. *)
Theorem C113_contains : forall D (v : cv D) k, contains v k = true <-> exists m, v = CObj m /\ In k (keys m).
Proof.
  intros D v k. split.
  - intros H. destruct v as [| | | | | |m| | | |]; try discriminate. exists m. split; [reflexivity|]. cbn in H. destruct (hm_get m k) eqn:E; [|discriminate].
    destruct (in_dec (list_eq_dec N.eq_dec) k (keys m)) as [K|K]; [exact K|]. apply get_none in K. congruence.
  - intros (m & -> & H). cbn. destruct (hm_get m k) eqn:E; [reflexivity|]. apply get_none in E. contradiction.
Qed.
(** The test at config_value.rs 468-487, with a reference in the second chain; a key of an object. *)
Example C113_case : let first := push (CBool true) (CNum 2) in let second := push (CStr (bs "s")) (CRef None (bs "p") false) in
  to_vec (combine first second) = [CBool true; CNum 2; CStr (bs "s"); CRef (Some (push first (CStr (bs "s")))) (bs "p") false] /\
  combine_maps [(bs "k", first)] [(bs "k", second); (bs "j", CNull)] = [(bs "k", combine first second); (bs "j", CNull)] /\
  contains (CObj [(bs "k", first)]) (bs "k") = true /\ contains (CObj [(bs "k", first)]) (bs "j") = false /\ NoDup (keys [(bs "k", second); (bs "j", CNull)]).
Proof. repeat split; try reflexivity. repeat constructor; cbn; intuition discriminate. Qed.
Print Assumptions C113_chain_added.
Print Assumptions C113_value_dropped.
Print Assumptions C113_keeps_both_refuted.
Print Assumptions C113_objects.
Print Assumptions C113_arrays.
Print Assumptions C113_contains.

(** ** C114: the hello_world example *)
(** parser/examples/hello_world.rs 6-11. *)
Definition hello : parser N (list N) :=
  p_map_res (p_surround (p_elm_ref (chr "'"))
               (p_collect (p_and (p_and (p_seqN (bs "hello")) p_elm_space) (p_seqN (bs "world"))))
               (p_and (p_elm_ref (chr "'")) (p_elm_ref (chr ";")))) from_utf8.
(** The spec. *)
Definition greeting (s : list N) : Prop := s = bs "hello world" \/ s = bs "hello" ++ [9%N] ++ bs "world".
Lemma hello_triple : hoare hello (fun v s => greeting v /\ s = bs "'" ++ v ++ bs "';").
Proof.
  assert (G : hoare (p_and (p_and (p_seqN (bs "hello")) p_elm_space) (p_seqN (bs "world"))) (fun _ s => greeting s)).
  { eapply h_and with (P := fun _ s => s = bs "hello" ++ [32%N] \/ s = bs "hello" ++ [9%N]) (Q := fun _ s => s = bs "world").
    - eapply h_and with (P := fun _ s => s = bs "hello") (Q := fun _ s => s = [32%N] \/ s = [9%N]).
      + now apply h_seqN.
      + apply h_elm_pred. intros x Hx. unfold is_ascii_space in Hx. apply orb_true_iff in Hx. rewrite !N.eqb_eq in Hx. destruct Hx as [->| ->]; auto.
      + intros a b s1 s2 -> [->| ->]; auto.
    - now apply h_seqN.
    - intros a b s1 s2 [->| ->] ->; [left|right]; reflexivity. }
  unfold hello. eapply h_map_res with (Q := fun v s => greeting v /\ s = bs "'" ++ v ++ bs "';").
  - eapply h_surround with (L := fun _ s => s = bs "'") (P := fun v s => v = s /\ greeting v) (R := fun _ s => s = bs "';").
    + now apply h_elm_ref.
    + eapply h_collect; [exact G|]. cbn. auto.
    + eapply h_and with (P := fun _ s => s = bs "'") (Q := fun _ s => s = bs ";"); [now apply h_elm_ref|now apply h_elm_ref|]. intros a b s1 s2 -> ->. reflexivity.
    + intros a b c s1 s2 s3 -> (<- & K) ->. exact (conj K eq_refl).
  - intros v s w (K & ->) E. unfold from_utf8 in E. destruct (utf8_valid v); inv E. auto.
Qed.
(** C114: it accepts exactly the texts that start with hello and world, with a space or a tab between them, in quotes, with a
    semicolon behind, and returns what is between the quotes. *)
Theorem C114_exact : forall inp v n,
  parse hello inp = Success v n <-> n = 14 /\ greeting v /\ exists rest, inp = bs "'" ++ v ++ bs "';" ++ rest.
Proof.
  intros inp v n. unfold parse. split.
  - intros E. pose proof (hello_triple inp (Nat.le_0_l _)) as H. rewrite E in H. destruct H as (Hn & K & Hs). cbn [skipn] in Hs.
    assert (L : length (firstn n inp) = 14) by (rewrite Hs; destruct K as [-> | ->]; reflexivity).
    rewrite firstn_length_le in L by exact Hn. split; [exact L|]. split; [exact K|]. exists (skipn n inp).
    rewrite <- (firstn_skipn n inp) at 1. rewrite Hs. now rewrite <- !app_assoc.
  - intros (-> & K & rest & ->).
    assert (A : acc hello (bs "'" ++ v ++ bs "';") rest v).
    { unfold hello. apply a_map_res with (v := v); [|destruct K as [-> | ->]; reflexivity].
      apply a_surround with (a := chr "'") (c := (chr "'", chr ";")); [apply a_elm_ref| |].
      - destruct K as [-> | ->]; eapply a_collect.
        + change (bs "hello world") with ((bs "hello" ++ [32%N]) ++ bs "world"). apply a_and; [apply a_and; [apply a_seqN|now apply a_elm_pred]|apply a_seqN].
        + rewrite app_assoc. apply a_and; [apply a_and; [apply a_seqN|now apply a_elm_pred]|apply a_seqN].
      - change (bs "';") with ([chr "'"] ++ [chr ";"]). apply a_and; apply a_elm_ref. }
    specialize (A []). cbn [app length] in A. rewrite <- !app_assoc in A. cbn [app] in A. rewrite A. f_equal. destruct K as [-> | ->]; reflexivity.
Qed.

(** C114: every other text is refused with an error. *)
Theorem C114_otherwise_fails : forall inp, (exists v, parse hello inp = Success v 14) \/ exists e c, parse hello inp = Failure e c.
Proof.
  intros inp. pose proof (hello_triple inp (Nat.le_0_l _)) as H. destruct (parse hello inp) as [v n|e c| |] eqn:E; unfold parse in E.
  - left. exists v. f_equal. now destruct (proj1 (C114_exact inp v n) E) as (-> & _).
  - right. eauto.
  - now rewrite E in H.
  - now rewrite E in H.
Qed.
Example C114_case : parse hello (bs "'hello world';") = Success (bs "hello world") 14 /\
  (exists e, parse hello (bs "'hello  world';") = Failure e false) /\ greeting (bs "hello" ++ [9%N] ++ bs "world").
Proof. split; [vm_compute; reflexivity|]. split; [eexists; vm_compute; reflexivity|now right]. Qed.
Print Assumptions C114_exact.
Print Assumptions C114_otherwise_fails.
