(** Facts about the hocon model: merging, chains of values, lookup, resolution. *)
From Coq Require Import Permutation.
From Verif Require Import Base Core Comb Closure Text Json JsonFacts Hocon.
Set Implicit Arguments.
Local Open Scope string_scope.
Local Open Scope nat_scope.
Local Open Scope list_scope.

Section Facts.
Variable D : Type.
Notation cv := (cv D).
Notation key := (list N).

(** Induction over configuration values. *)
Lemma cv_ind2 : forall (P : cv -> Prop),
  P CNull -> (forall b, P (CBool b)) -> (forall s, P (CStr s)) -> (forall d, P (CNum d)) -> (forall d u, P (CDur d u)) ->
  (forall l, Forall P l -> P (CArr l)) -> (forall m, Forall (fun kv => P (snd kv)) m -> P (CObj m)) ->
  (forall o l, (forall p, o = Some p -> P p) -> Forall P l -> P (CEnum o l)) ->
  (forall o path m, (forall p, o = Some p -> P p) -> P (CRef o path m)) ->
  (forall m f, P (CIncl m f)) -> (forall p v, P p -> P v -> P (CLink p v)) -> forall v, P v.
Proof.
  intros P h1 h2 h3 h4 h5 h6 h7 h8 h9 h10 h11. fix IH 1. intros v.
  destruct v; [exact h1|apply h2|apply h3|apply h4|apply h5| | | | |apply h10|apply h11; apply IH].
  - apply h6. induction l as [|x l IHl]; constructor; [apply IH|exact IHl].
  - apply h7. induction m as [|x m IHm]; constructor; [apply IH|exact IHm].
  - apply h8.
    + intros p E. destruct prev as [q|]; [|discriminate]. injection E as <-. apply IH.
    + induction l as [|x l IHl]; constructor; [apply IH|exact IHl].
  - apply h9. intros p E. destruct prev as [q|]; [|discriminate]. injection E as <-. apply IH.
Qed.

(** ** Merging *)
Lemma merge_obj : forall a b, merge_with (CObj a) (CObj b) = CObj (merge_maps (D := D) a b).
Proof.
  intros a b. unfold merge_with. cbn [merge]. f_equal. unfold merge_maps. revert a.
  induction b as [|[k v] b IH]; intros a; [reflexivity|]. cbn [map fold_left]. rewrite IH. reflexivity.
Qed.
Lemma merge_arr : forall a b, merge_with (CArr a) (CArr b : cv) = CArr (a ++ b).
Proof. reflexivity. Qed.
(** Neither an object nor an array nor a chain. *)
Definition scalar (v : cv) : Prop := match v with CObj _ | CArr _ | CLink _ _ => False | _ => True end.
Lemma merge_scalar : forall a b, scalar a -> merge_with a b = a.
Proof. intros a b H. unfold merge_with. destruct a; try contradiction; destruct b; reflexivity. Qed.
Lemma merge_scalar_r : forall a b, scalar b -> (forall p v, a <> CLink p v) -> merge_with a b = a.
Proof. intros a b H Hl. unfold merge_with. destruct b; try contradiction; destruct a; try reflexivity; exfalso; eapply Hl; reflexivity. Qed.

Definition keys (m : list (key * cv)) : list key := map fst m.
Lemma get_none : forall (m : list (key * cv)) k, hm_get m k = None <-> ~ In k (keys m).
Proof.
  intros m k. induction m as [|[k' v] m IH]; cbn; [tauto|]. destruct (list_eq_dec N.eq_dec k k') as [->|Hn].
  - split; [discriminate|tauto].
  - rewrite IH. split; intros H; [intros [E|E]; [congruence|tauto]|tauto].
Qed.
Lemma merge_maps_get : forall b a k, NoDup (keys b) ->
  hm_get (merge_maps a b) k = match hm_get a k, hm_get b k with
                              | Some x, Some y => Some (merge_with x y)
                              | Some x, None => Some x
                              | None, y => y
                              end.
Proof.
  unfold merge_maps. induction b as [|[k0 v0] b IH]; intros a k Hnd; cbn [fold_left].
  - cbn. now destruct (hm_get a k).
  - cbn in Hnd. inv Hnd. rewrite IH by assumption. clear IH. cbn [fst snd hm_get].
    destruct (list_eq_dec N.eq_dec k k0) as [->|Hn].
    + apply get_none in H1. rewrite H1. destruct (hm_get a k0) eqn:E; rewrite hm_get_set; destruct (list_eq_dec N.eq_dec k0 k0); congruence.
    + destruct (hm_get a k0) eqn:E; rewrite hm_get_set; destruct (list_eq_dec N.eq_dec k k0); congruence.
Qed.

(** Setting in an association list: in place, or at the end. *)
Lemma set_new : forall (m : list (key * cv)) k v, hm_get m k = None -> hm_set m k v = m ++ [(k, v)].
Proof.
  intros m k v. induction m as [|[k' v'] m IH]; cbn; [reflexivity|]. destruct (list_eq_dec N.eq_dec k k'); [discriminate|].
  intros H. now rewrite IH.
Qed.
Lemma set_keys_old : forall (m : list (key * cv)) k v x, hm_get m k = Some x -> keys (hm_set m k v) = keys m.
Proof.
  intros m k v x. unfold keys. induction m as [|[k' v'] m IH]; cbn; [discriminate|]. destruct (list_eq_dec N.eq_dec k k'); [reflexivity|].
  intros H. cbn. now rewrite IH.
Qed.
(** Two association lists with distinct keys, the same keys in the same order and the same lookups are equal. *)
Lemma alist_ext : forall a b : list (key * cv), keys a = keys b -> NoDup (keys a) ->
  (forall k, hm_get a k = hm_get b k) -> a = b.
Proof.
  unfold keys. induction a as [|[k v] a IH]; intros [|[k' v'] b] Hk Hnd Hg; try discriminate; [reflexivity|].
  cbn in Hk, Hnd. inv Hk. inv Hnd. pose proof (Hg k') as E. cbn in E. destruct (list_eq_dec N.eq_dec k' k'); [|congruence]. inv E.
  f_equal. apply IH; [assumption|assumption|]. intros k. specialize (Hg k). cbn in Hg.
  destruct (list_eq_dec N.eq_dec k k') as [->|Hn]; [|exact Hg].
  replace (hm_get a k') with (None : option cv); [|symmetry; now apply get_none].
  symmetry. apply get_none. unfold keys. now rewrite <- H1.
Qed.
(** The keys of a merge: those of the left, then the new ones of the right. *)
Definition new_keys (a b : list key) : list key := filter (fun k => if in_dec (list_eq_dec N.eq_dec) k a then false else true) b.
Lemma merge_maps_keys : forall b a, NoDup (keys b) -> keys (merge_maps a b) = keys a ++ new_keys (keys a) (keys b).
Proof.
  unfold merge_maps, new_keys. induction b as [|[k0 v0] b IH]; intros a Hnd; cbn [fold_left keys map filter fst snd].
  - now rewrite app_nil_r.
  - cbn in Hnd. inv Hnd. rewrite IH by assumption. fold (keys b). destruct (hm_get a k0) as [x|] eqn:E.
    + rewrite (set_keys_old _ _ _ E). destruct (in_dec _ k0 (keys a)) as [_|Hn]; [reflexivity|]. apply get_none in Hn. congruence.
    + rewrite (set_new _ _ _ E). apply get_none in E. destruct (in_dec _ k0 (keys a)) as [Hi|_]; [contradiction|].
      unfold keys at 1. rewrite map_app. cbn [map fst]. rewrite <- app_assoc. cbn [app]. f_equal. f_equal.
      apply filter_ext_in. intros k Hk. unfold keys. rewrite map_app. cbn [map fst].
      destruct (in_dec _ k (map fst a)) as [Hi|Hi]; destruct (in_dec _ k (map fst a ++ [k0])) as [Hj|Hj]; try reflexivity.
      * exfalso. apply Hj. apply in_or_app. now left.
      * apply in_app_or in Hj. destruct Hj as [Hj|[<-|[]]]; [contradiction|]. contradiction.
Qed.
Lemma NoDup_app_intro : forall A (a b : list A), NoDup a -> NoDup b -> (forall x, In x a -> ~ In x b) -> NoDup (a ++ b).
Proof.
  intros A a b Ha Hb H. induction Ha as [|x a Hx Ha IH]; [exact Hb|]. cbn. constructor.
  - intros Hi. apply in_app_or in Hi. destruct Hi as [Hi|Hi]; [contradiction|]. apply (H x); [now left|exact Hi].
  - apply IH. intros y Hy. apply H. now right.
Qed.
Lemma merge_maps_nodup : forall a b, NoDup (keys a) -> NoDup (keys b) -> NoDup (keys (merge_maps a b)).
Proof.
  intros a b Ha Hb. rewrite merge_maps_keys by exact Hb. clear - Ha Hb. unfold new_keys.
  apply NoDup_app_intro; [exact Ha|now apply NoDup_filter|].
  intros k Hk Hf. apply filter_In in Hf. destruct Hf as [_ Hf]. now destruct (in_dec _ k (keys a)).
Qed.

(** *** Associativity.  A schema says at which positions objects, arrays and scalars stand. *)
Inductive schema := SLeaf | SArr | SObj (f : key -> schema).
Fixpoint conforms (s : schema) (v : cv) : Prop :=
  match s with
  | SLeaf => scalar v
  | SArr => exists l, v = CArr l
  | SObj f => exists m, v = CObj m /\ NoDup (keys m) /\ forall k x, hm_get m k = Some x -> conforms (f k) x
  end.
Lemma conforms_merge : forall s a b, conforms s a -> conforms s b -> conforms s (merge_with a b).
Proof.
  induction s as [| |f IH]; intros a b Ha Hb; cbn [conforms] in *.
  - now rewrite merge_scalar.
  - destruct Ha as [la ->], Hb as [lb ->]. rewrite merge_arr. eauto.
  - destruct Ha as (ma & -> & Na & Ca), Hb as (mb & -> & Nb & Cb). rewrite merge_obj. eexists. split; [reflexivity|].
    split; [now apply merge_maps_nodup|]. intros k x. rewrite merge_maps_get by exact Nb.
    destruct (hm_get ma k) as [xa|] eqn:Ea, (hm_get mb k) as [xb|] eqn:Eb; intros E; inv E; eauto.
Qed.
Lemma new_keys_app : forall a b c, new_keys a (b ++ c) = new_keys a b ++ new_keys a c.
Proof. intros a b c. unfold new_keys. apply filter_app. Qed.
Lemma new_keys_new : forall a b c, new_keys (a ++ new_keys a b) c = new_keys a (new_keys b c).
Proof.
  intros a b c. induction c as [|k c IH]; [reflexivity|]. unfold new_keys in *. cbn [filter].
  destruct (in_dec (list_eq_dec N.eq_dec) k b) as [Hb|Hb].
  - destruct (in_dec _ k (a ++ _)) as [Hi|Hi]; [exact IH|]. exfalso. apply Hi. apply in_or_app.
    destruct (in_dec (list_eq_dec N.eq_dec) k a) as [Ha|Ha]; [now left|]. right. apply filter_In. split; [exact Hb|].
    now destruct (in_dec (list_eq_dec N.eq_dec) k a).
  - cbn [filter]. destruct (in_dec (list_eq_dec N.eq_dec) k a) as [Ha|Ha].
    + destruct (in_dec _ k (a ++ _)) as [Hi|Hi]; [exact IH|]. exfalso. apply Hi. apply in_or_app. now left.
    + destruct (in_dec _ k (a ++ _)) as [Hi|Hi]; [|now rewrite IH]. exfalso. apply in_app_or in Hi. destruct Hi as [Hi|Hi]; [contradiction|].
      apply filter_In in Hi. now destruct Hi.
Qed.
Lemma merge_assoc : forall s a b c, conforms s a -> conforms s b -> conforms s c ->
  merge_with (merge_with a b) c = merge_with a (merge_with b c).
Proof.
  induction s as [| |f IH]; intros a b c Ha Hb Hc; cbn [conforms] in *.
  - now rewrite !(merge_scalar a) by assumption.
  - destruct Ha as [la ->], Hb as [lb ->], Hc as [lc ->]. rewrite !merge_arr. now rewrite app_assoc.
  - destruct Ha as (ma & -> & Na & Ca), Hb as (mb & -> & Nb & Cb), Hc as (mc & -> & Nc & Cc). rewrite !merge_obj. f_equal.
    assert (Nab : NoDup (keys (merge_maps ma mb))) by now apply merge_maps_nodup.
    assert (Nbc : NoDup (keys (merge_maps mb mc))) by now apply merge_maps_nodup.
    apply alist_ext; [|now apply merge_maps_nodup|].
    + rewrite !merge_maps_keys by assumption. rewrite new_keys_app, new_keys_new, app_assoc. reflexivity.
    + intros k. rewrite !merge_maps_get by assumption.
      destruct (hm_get ma k) as [xa|] eqn:Ea, (hm_get mb k) as [xb|] eqn:Eb, (hm_get mc k) as [xc|] eqn:Ec; try reflexivity.
      f_equal. eapply IH; eauto.
Qed.
(** Objects of objects, to any depth. *)
Inductive tree : cv -> Prop :=
| tree_obj : forall m, NoDup (keys m) -> (forall k v, hm_get m k = Some v -> tree v) -> tree (CObj m).
Fixpoint full (n : nat) : schema := match n with 0 => SObj (fun _ => SLeaf) | S n' => SObj (fun _ => full n') end.
Lemma get_in : forall (m : list (key * cv)) k v, hm_get m k = Some v -> In (k, v) m.
Proof.
  intros m k v. induction m as [|[k' v'] m IH]; cbn; [discriminate|]. destruct (list_eq_dec N.eq_dec k k') as [->|_].
  - intros E. inv E. now left.
  - intros E. right. now apply IH.
Qed.
Lemma in_get : forall (m : list (key * cv)) k v, NoDup (keys m) -> In (k, v) m -> hm_get m k = Some v.
Proof.
  intros m k v. unfold keys. induction m as [|[k' v'] m IH]; intros Hn Hi; [contradiction|]. cbn in Hn. inv Hn. cbn.
  destruct Hi as [E|Hi].
  - inv E. now destruct (list_eq_dec N.eq_dec k k).
  - destruct (list_eq_dec N.eq_dec k k') as [->|_]; [|now apply IH]. exfalso. apply H1. apply in_map_iff. now exists (k', v).
Qed.
Lemma tree_conforms : forall v, tree v -> exists n, forall m, n <= m -> conforms (full m) v.
Proof.
  intros v. induction v as [|b|s|d|d u|l Hl|m Hm|o l Ho Hl|o path ms Ho|me f|p v Hp Hv] using cv_ind2; intros T; inv T.
  assert (A : exists n, forall k v, In (k, v) m -> forall m', n <= m' -> conforms (full m') v).
  { assert (T : Forall (fun kv => tree (snd kv)) m).
    { apply Forall_forall. intros [k v] Hi. cbn. eapply H1. apply in_get; eassumption. }
    clear H0 H1. induction Hm as [|[k v] m Hx Hm IH]; [exists 0; contradiction|]. inv T. destruct (IH H2) as [n1 H1'].
    destruct (Hx H1) as [n2 H2']. exists (n1 + n2). intros k' v' [E|Hi] m' Hm'; [inv E; apply H2'; cbn; lia|].
    eapply H1'; [exact Hi|lia]. }
  destruct A as [n A]. exists (S n). intros m' Hm'. destruct m' as [|m']; [lia|]. cbn [full conforms].
  exists m. split; [reflexivity|]. split; [assumption|]. intros k x E. eapply A; [apply get_in; exact E|lia].
Qed.
Lemma merge_assoc_tree : forall a b c, tree a -> tree b -> tree c ->
  merge_with (merge_with a b) c = merge_with a (merge_with b c).
Proof.
  intros a b c Ha Hb Hc. destruct (tree_conforms Ha) as [na A], (tree_conforms Hb) as [nb B], (tree_conforms Hc) as [nc C].
  apply merge_assoc with (s := full (na + nb + nc)); [apply A|apply B|apply C]; lia.
Qed.
(** Identity *)
Lemma merge_nil_r : forall a, merge_with (CObj a) (CObj []) = CObj (D := D) a.
Proof. reflexivity. Qed.
Lemma merge_nil_l : forall b, NoDup (keys b) -> merge_with (CObj []) (CObj b) = CObj b.
Proof.
  intros b Hb. rewrite merge_obj. f_equal. apply alist_ext.
  - rewrite merge_maps_keys by exact Hb. unfold new_keys. cbn [keys map app]. clear Hb. induction (keys b) as [|k l IH]; [reflexivity|].
    cbn [filter]. destruct (in_dec (list_eq_dec N.eq_dec) k []) as [[]|_]. now rewrite IH.
  - apply merge_maps_nodup; [constructor|exact Hb].
  - intros k. now rewrite merge_maps_get by exact Hb.
Qed.

(** *** The order in which the entries of the right object are visited is irrelevant to the lookups. *)
Lemma perm_get : forall a b : list (key * cv), Permutation a b -> NoDup (keys a) -> forall k, hm_get a k = hm_get b k.
Proof.
  intros a b P Hn k. destruct (hm_get a k) as [x|] eqn:Ea.
  - symmetry. apply in_get; [eapply Permutation_NoDup; [apply Permutation_map, P|exact Hn]|].
    eapply Permutation_in; [exact P|]. now apply get_in.
  - symmetry. apply get_none. apply get_none in Ea. intros Hi. apply Ea. eapply Permutation_in; [|exact Hi].
    apply Permutation_map. now symmetry.
Qed.

(** ** Chains *)
Lemma to_vec_push : forall v c : cv, to_vec (push v c) = to_vec v ++ [latest (push v c)].
Proof. intros v c. unfold to_vec, push. cbn [to_vec_rev latest rev]. reflexivity. Qed.
(** Values that [push] stores unchanged. *)
Definition plain (v : cv) : Prop := forall p path m, v <> CRef p path m.
Lemma push_plain : forall v c : cv, plain c -> push v c = CLink v c.
Proof. intros v c H. unfold push. destruct c; try reflexivity. now destruct (H prev path missing). Qed.
Lemma fold_push : forall (l : list cv) (v : cv), Forall plain l -> to_vec (fold_left (@push D) l v) = to_vec v ++ l.
Proof.
  intros l v H. revert v. induction H as [|x l Hx H IH]; intros v; cbn [fold_left]; [now rewrite app_nil_r|].
  rewrite IH, to_vec_push, push_plain by exact Hx. cbn [latest]. now rewrite <- app_assoc.
Qed.
(** A chain is the fold of its values. *)
Lemma refold : forall v : cv, Forall plain (tl (to_vec v)) -> match to_vec v with [] => False | h :: t => fold_left (@push D) t h = v end.
Proof.
  intros v. induction v as [|b|s|d|d u|l Hl|m Hm|o l Ho Hl|o path ms Ho|me f|p v Hp Hv] using cv_ind2; try reflexivity.
  intros H. assert (E : to_vec (CLink p v) = to_vec p ++ [v]) by (unfold to_vec; reflexivity). rewrite E in *.
  destruct (to_vec p) as [|h t] eqn:Et; [contradiction Hp; constructor|]. cbn in H |- *. apply Forall_app in H. destruct H as [H1 H2]. inv H2.
  rewrite fold_left_app. cbn. rewrite (Hp H1). now apply push_plain.
Qed.
End Facts.
