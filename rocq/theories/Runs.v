(** Completeness rules: what a parser does on a given text, wherever the text stands in the input. *)
From Verif Require Import Base Core Comb Closure RepFacts LitFacts.
Set Implicit Arguments.

(** On [s] followed by [rest], [p] consumes exactly [s] and returns [v]. *)
Definition acc {I A} (p : parser I A) (s rest : list I) (v : A) : Prop :=
  forall pre, p (pre ++ s ++ rest) (length pre) = Success v (length s).
(** On [l], [p] fails with commit status [c]. *)
Definition rej {I A} (p : parser I A) (l : list I) (c : bool) : Prop :=
  forall pre, exists e, p (pre ++ l) (length pre) = Failure e c.
(** [l] does not start with an element of the class [f]. *)
Definition hd_not {I} (f : I -> bool) (l : list I) : Prop := match l with [] => True | x :: _ => f x = false end.

Section Runs.
Context {I : Type}.

Lemma input_at : forall (pre l : list I), ps_input (pre ++ l) (length pre) = Some l.
Proof.
  intros pre l. rewrite ps_input_ok by (rewrite app_length; lia). now rewrite skipn_app, Nat.sub_diag, skipn_all.
Qed.
Lemma slice_at : forall (pre s rest : list I), slice_with_len (pre ++ s ++ rest) (length pre) (length s) = Some s.
Proof.
  intros pre s rest. unfold slice_with_len, slice.
  replace ((length pre <=? length pre + length s) && (length pre + length s <=? length (pre ++ s ++ rest))) with true.
  - f_equal. rewrite skipn_app, Nat.sub_diag, skipn_all. cbn [skipn app].
    replace (length pre + length s - length pre) with (length s) by lia.
    rewrite firstn_app, Nat.sub_diag, firstn_all. cbn. now rewrite app_nil_r.
  - symmetry. rewrite andb_true_iff, !Nat.leb_le, !app_length. lia.
Qed.

Lemma acc_nil_app : forall A (p : parser I A) s v, acc p s [] v -> forall pre, p (pre ++ s) (length pre) = Success v (length s).
Proof. intros A p s v H pre. rewrite <- (H pre). now rewrite app_nil_r. Qed.
Lemma acc_parse : forall A (p : parser I A) s rest v, acc p s rest v -> parse p (s ++ rest) = Success v (length s).
Proof. intros A p s rest v H. exact (H []). Qed.
Lemma rej_parse : forall A (p : parser I A) l c, rej p l c -> exists e, parse p l = Failure e c.
Proof. intros A p l c H. exact (H []). Qed.

(** Moving past [s]. *)
Lemma acc_next : forall A (p : parser I A) pre s s' rest v, acc p s' rest v ->
  p (pre ++ s ++ s' ++ rest) (length pre + length s) = Success v (length s').
Proof.
  intros A p pre s s' rest v H. specialize (H (pre ++ s)). rewrite <- app_assoc in H. now rewrite app_length in H.
Qed.
Lemma rej_next : forall A (p : parser I A) pre s l c, rej p l c ->
  exists e, p (pre ++ s ++ l) (length pre + length s) = Failure e c.
Proof.
  intros A p pre s l c H. specialize (H (pre ++ s)). rewrite <- app_assoc in H. now rewrite app_length in H.
Qed.

Lemma a_successful : forall A (v : A) (rest : list I), acc (p_successful v) [] rest v.
Proof. intros A v rest pre. reflexivity. Qed.
Lemma a_map : forall A B (p : parser I A) (f : A -> B) s rest v, acc p s rest v -> acc (p_map p f) s rest (f v).
Proof. intros A B p f s rest v H pre. unfold p_map. now rewrite H. Qed.
Lemma a_map_eq : forall A B (p : parser I A) (f : A -> B) s rest v w, acc p s rest v -> w = f v -> acc (p_map p f) s rest w.
Proof. intros A B p f s rest v w H ->. now apply a_map. Qed.
Lemma r_map : forall A B (p : parser I A) (f : A -> B) l c, rej p l c -> rej (p_map p f) l c.
Proof. intros A B p f l c H pre. destruct (H pre) as [e E]. exists e. unfold p_map. now rewrite E. Qed.
Lemma a_map_panic : forall A B (p : parser I A) (f : A -> option B) s rest v w,
  acc p s rest v -> f v = Some w -> acc (p_map_panic p f) s rest w.
Proof. intros A B p f s rest v w H Hf pre. unfold p_map_panic. now rewrite H, Hf. Qed.
Lemma r_map_panic : forall A B (p : parser I A) (f : A -> option B) l c, rej p l c -> rej (p_map_panic p f) l c.
Proof. intros A B p f l c H pre. destruct (H pre) as [e E]. exists e. unfold p_map_panic. now rewrite E. Qed.
Lemma a_map_res : forall A B E (p : parser I A) (f : A -> B + E) s rest v w,
  acc p s rest v -> f v = inl w -> acc (p_map_res p f) s rest w.
Proof. intros A B E p f s rest v w H Hf pre. unfold p_map_res. now rewrite H, Hf. Qed.
Lemma r_map_res : forall A B E (p : parser I A) (f : A -> B + E) l c, rej p l c -> rej (p_map_res p f) l c.
Proof. intros A B E p f l c H pre. destruct (H pre) as [e E']. exists e. unfold p_map_res. now rewrite E'. Qed.
Lemma r_map_res_conv : forall A B E (p : parser I A) (f : A -> B + E) s rest v x,
  acc p s rest v -> f v = inr x -> rej (p_map_res p f) (s ++ rest) false.
Proof.
  intros A B E p f s rest v x H Hf pre. unfold p_map_res. rewrite H, Hf, input_at. unfold failed_with_uncommitted. eauto.
Qed.
Lemma a_map_opt : forall A B (p : parser I A) (f : A -> option B) s rest v w,
  acc p s rest v -> f v = Some w -> acc (p_map_opt p f) s rest w.
Proof. intros A B p f s rest v w H Hf pre. unfold p_map_opt. now rewrite H, Hf. Qed.
Lemma r_map_opt : forall A B (p : parser I A) (f : A -> option B) l c, rej p l c -> rej (p_map_opt p f) l c.
Proof. intros A B p f l c H pre. destruct (H pre) as [e E']. exists e. unfold p_map_opt. now rewrite E'. Qed.
Lemma a_filter : forall A (p : parser I A) f s rest v, acc p s rest v -> f v = true -> acc (p_filter p f) s rest v.
Proof. intros A p f s rest v H Hf pre. unfold p_filter. now rewrite H, Hf. Qed.
Lemma r_filter : forall A (p : parser I A) f l c, rej p l c -> rej (p_filter p f) l c.
Proof. intros A p f l c H pre. destruct (H pre) as [e E']. exists e. unfold p_filter. now rewrite E'. Qed.
Lemma r_filter_false : forall A (p : parser I A) f s rest v, acc p s rest v -> f v = false -> rej (p_filter p f) (s ++ rest) false.
Proof. intros A p f s rest v H Hf pre. unfold p_filter. rewrite H, Hf. eauto. Qed.
Lemma a_name : forall A (p : parser I A) nm s rest v, acc p s rest v -> acc (p_name p nm) s rest v.
Proof. intros A p nm s rest v H pre. unfold p_name. now rewrite H. Qed.
Lemma r_name : forall A (p : parser I A) nm l c, rej p l c -> rej (p_name p nm) l c.
Proof.
  intros A p nm l c H pre. destruct (H pre) as [e E]. unfold p_name. rewrite E. destruct (is_custom e); eauto.
Qed.
Lemma a_lazy : forall A (f : unit -> parser I A) s rest v, acc (f tt) s rest v -> acc (p_lazy f) s rest v.
Proof. intros A f s rest v H pre. apply H. Qed.
Lemma r_lazy : forall A (f : unit -> parser I A) l c, rej (f tt) l c -> rej (p_lazy f) l c.
Proof. intros A f l c H pre. apply H. Qed.
Lemma a_collect : forall A (p : parser I A) s rest v, acc p s rest v -> acc (p_collect p) s rest s.
Proof. intros A p s rest v H pre. unfold p_collect. now rewrite H, slice_at. Qed.
Lemma r_collect : forall A (p : parser I A) l c, rej p l c -> rej (p_collect p) l c.
Proof. intros A p l c H pre. destruct (H pre) as [e E]. exists e. unfold p_collect. now rewrite E. Qed.
Lemma a_discard : forall A (p : parser I A) s rest v, acc p s rest v -> acc (p_discard p) s rest tt.
Proof. intros A p s rest v H pre. unfold p_discard. now rewrite H. Qed.
Lemma r_discard : forall A (p : parser I A) l c, rej p l c -> rej (p_discard p) l c.
Proof. intros A p l c H pre. destruct (H pre) as [e E]. exists e. unfold p_discard. now rewrite E. Qed.
Lemma a_attempt : forall A (p : parser I A) s rest v, acc p s rest v -> acc (p_attempt p) s rest v.
Proof. intros A p s rest v H pre. unfold p_attempt. now rewrite H. Qed.
Lemma r_attempt : forall A (p : parser I A) l c, rej p l c -> rej (p_attempt p) l false.
Proof. intros A p l c H pre. destruct (H pre) as [e E]. exists e. unfold p_attempt. rewrite E. now destruct c. Qed.
Lemma a_or1 : forall A (p q : parser I A) s rest v, acc p s rest v -> acc (p_or p q) s rest v.
Proof. intros A p q s rest v H pre. unfold p_or. now rewrite H. Qed.
Lemma a_or2 : forall A (p q : parser I A) s rest v, rej p (s ++ rest) false -> acc q s rest v -> acc (p_or p q) s rest v.
Proof. intros A p q s rest v H H2 pre. unfold p_or. destruct (H pre) as [e ->]. apply H2. Qed.
Lemma r_or : forall A (p q : parser I A) l c, rej p l false -> rej q l c -> rej (p_or p q) l c.
Proof. intros A p q l c H H2 pre. unfold p_or. destruct (H pre) as [e ->]. apply H2. Qed.
Lemma r_or_commit : forall A (p q : parser I A) l, rej p l true -> rej (p_or p q) l true.
Proof. intros A p q l H pre. unfold p_or. destruct (H pre) as [e ->]. cbn. eauto. Qed.

Lemma a_and : forall A B (p : parser I A) (q : parser I B) s1 s2 rest a b,
  acc p s1 (s2 ++ rest) a -> acc q s2 rest b -> acc (p_and p q) (s1 ++ s2) rest (a, b).
Proof.
  intros A B p q s1 s2 rest a b H1 H2 pre. rewrite <- app_assoc. unfold p_and.
  rewrite H1, (acc_next pre s1 H2). now rewrite app_length.
Qed.
Lemma r_and1 : forall A B (p : parser I A) (q : parser I B) l c, rej p l c -> rej (p_and p q) l c.
Proof. intros A B p q l c H pre. unfold p_and. destruct (H pre) as [e ->]. eauto. Qed.
Lemma r_and2 : forall A B (p : parser I A) (q : parser I B) s rest a c,
  acc p s rest a -> rej q rest c -> rej (p_and p q) (s ++ rest) c.
Proof.
  intros A B p q s rest a c H1 H2 pre. unfold p_and. rewrite H1. destruct (rej_next pre s H2) as [e ->]. eauto.
Qed.
Lemma a_skip_left : forall A B (p : parser I A) (q : parser I B) s1 s2 rest a b,
  acc p s1 (s2 ++ rest) a -> acc q s2 rest b -> acc (p_skip_left p q) (s1 ++ s2) rest b.
Proof.
  intros A B p q s1 s2 rest a b H1 H2 pre. rewrite <- app_assoc. unfold p_skip_left.
  rewrite H1, (acc_next pre s1 H2). now rewrite app_length.
Qed.
Lemma r_skip_left1 : forall A B (p : parser I A) (q : parser I B) l c, rej p l c -> rej (p_skip_left p q) l c.
Proof. intros A B p q l c H pre. unfold p_skip_left. destruct (H pre) as [e ->]. eauto. Qed.
Lemma r_skip_left2 : forall A B (p : parser I A) (q : parser I B) s rest a c,
  acc p s rest a -> rej q rest c -> rej (p_skip_left p q) (s ++ rest) c.
Proof.
  intros A B p q s rest a c H1 H2 pre. unfold p_skip_left. rewrite H1. destruct (rej_next pre s H2) as [e ->]. eauto.
Qed.
Lemma a_skip_right : forall A B (p : parser I A) (q : parser I B) s1 s2 rest a b,
  acc p s1 (s2 ++ rest) a -> acc q s2 rest b -> acc (p_skip_right p q) (s1 ++ s2) rest a.
Proof.
  intros A B p q s1 s2 rest a b H1 H2 pre. rewrite <- app_assoc. unfold p_skip_right.
  rewrite H1, (acc_next pre s1 H2). now rewrite app_length.
Qed.
Lemma r_skip_right1 : forall A B (p : parser I A) (q : parser I B) l c, rej p l c -> rej (p_skip_right p q) l c.
Proof. intros A B p q l c H pre. unfold p_skip_right. destruct (H pre) as [e ->]. eauto. Qed.
Lemma r_skip_right2 : forall A B (p : parser I A) (q : parser I B) s rest a c,
  acc p s rest a -> rej q rest c -> rej (p_skip_right p q) (s ++ rest) c.
Proof.
  intros A B p q s rest a c H1 H2 pre. unfold p_skip_right. rewrite H1. destruct (rej_next pre s H2) as [e ->]. cbn. eauto.
Qed.
Lemma a_surround : forall A B C (l : parser I A) (p : parser I B) (r : parser I C) s1 s2 s3 rest a b c,
  acc l s1 (s2 ++ s3 ++ rest) a -> acc p s2 (s3 ++ rest) b -> acc r s3 rest c ->
  acc (p_surround l p r) (s1 ++ s2 ++ s3) rest b.
Proof.
  intros A B C l p r s1 s2 s3 rest a b c H1 H2 H3. unfold p_surround. eapply a_skip_left.
  - rewrite <- app_assoc. exact H1.
  - eapply a_skip_right; [exact H2|exact H3].
Qed.
Lemma r_surround1 : forall A B C (l : parser I A) (p : parser I B) (r : parser I C) t c,
  rej l t c -> rej (p_surround l p r) t c.
Proof. intros A B C l p r t c H. now apply r_skip_left1. Qed.
Lemma a_flat_map : forall A B (p : parser I A) (f : A -> parser I B) s1 s2 rest a b,
  acc p s1 (s2 ++ rest) a -> acc (f a) s2 rest b -> acc (p_flat_map p f) (s1 ++ s2) rest b.
Proof.
  intros A B p f s1 s2 rest a b H1 H2 pre. rewrite <- app_assoc. unfold p_flat_map.
  rewrite H1, (acc_next pre s1 H2). cbn. rewrite app_length. f_equal. lia.
Qed.
Lemma r_flat_map1 : forall A B (p : parser I A) (f : A -> parser I B) l c, rej p l c -> rej (p_flat_map p f) l c.
Proof. intros A B p f l c H pre. unfold p_flat_map. destruct (H pre) as [e ->]. eauto. Qed.
Lemma r_flat_map2 : forall A B (p : parser I A) (f : A -> parser I B) s rest a c,
  acc p s rest a -> rej (f a) rest c -> rej (p_flat_map p f) (s ++ rest) (cs_or c (negb (length s =? 0))).
Proof.
  intros A B p f s rest a c H1 H2 pre. unfold p_flat_map. rewrite H1. destruct (rej_next pre s H2) as [e ->]. cbn. eauto.
Qed.
Lemma a_opt : forall A (p : parser I A) s rest v, acc p s rest v -> acc (p_opt p) s rest (Some v).
Proof. intros A p s rest v H. apply a_or1, a_map, a_attempt, H. Qed.
Lemma a_opt_none : forall A (p : parser I A) rest c, rej p rest c -> acc (p_opt p) [] rest None.
Proof. intros A p rest c H. apply a_or2; [|apply a_successful]. apply r_map. exact (r_attempt H). Qed.
Lemma a_end : acc (@p_end I) [] [] tt.
Proof. intros pre. unfold p_end. cbn [app]. now rewrite input_at. Qed.
Lemma r_end : forall x l, rej (@p_end I) (x :: l) false.
Proof. intros x l pre. unfold p_end. rewrite input_at. unfold failed_with_uncommitted. eauto. Qed.
Lemma a_not : forall A (p : parser I A) l c, rej p l c -> acc (p_not p) [] l tt.
Proof. intros A p l c H pre. unfold p_not. cbn [app]. now destruct (H pre) as [e ->]. Qed.
Lemma r_not : forall A (p : parser I A) s rest v, acc p s rest v -> rej (p_not p) (s ++ rest) false.
Proof.
  intros A p s rest v H pre. unfold p_not. rewrite H. rewrite Nat.add_0_r, input_at. unfold failed_with_uncommitted. eauto.
Qed.
Lemma a_peek : forall A (p : parser I A) s rest v, acc p s rest v -> acc (p_peek p) [] (s ++ rest) v.
Proof. intros A p s rest v H pre. unfold p_peek. cbn [app]. now rewrite H. Qed.

(** *** Single elements *)
Lemma a_elm_pred_ref : forall (f : I -> bool) x rest, f x = true -> acc (p_elm_pred_ref f) [x] rest x.
Proof. intros f x rest H pre. unfold p_elm_pred_ref. rewrite input_at. cbn. now rewrite H. Qed.
Lemma r_elm_pred_ref : forall (f : I -> bool) l, hd_not f l -> rej (p_elm_pred_ref f) l false.
Proof.
  intros f l H pre. unfold p_elm_pred_ref. rewrite input_at. unfold failed_with_uncommitted.
  destruct l as [|x l]; [eauto|]. cbn in H. rewrite H. eauto.
Qed.
Lemma a_elm_pred : forall (f : I -> bool) x rest, f x = true -> acc (p_elm_pred f) [x] rest x.
Proof. intros f x rest H. unfold p_elm_pred. apply (a_map (fun x => x)). now apply a_elm_pred_ref. Qed.
Lemma r_elm_pred : forall (f : I -> bool) l, hd_not f l -> rej (p_elm_pred f) l false.
Proof. intros f l H. unfold p_elm_pred. apply r_map. now apply r_elm_pred_ref. Qed.
Lemma a_elm_ref_of : forall (f : I -> bool) x rest, f x = true -> acc (p_elm_ref_of f) [x] rest x.
Proof. intros f x rest H pre. unfold p_elm_ref_of. rewrite input_at. cbn. now rewrite H. Qed.
Lemma r_elm_ref_of : forall (f : I -> bool) l, hd_not f l -> rej (p_elm_ref_of f) l false.
Proof.
  intros f l H pre. unfold p_elm_ref_of. rewrite input_at. unfold failed_with_uncommitted.
  destruct l as [|x l]; [eauto|]. cbn in H. rewrite H. eauto.
Qed.
Lemma a_elm_of_set : forall (f : I -> bool) x rest, f x = true -> acc (p_elm_of_set f) [x] rest x.
Proof. intros f x rest H. unfold p_elm_of_set. apply (a_map (fun x => x)). now apply a_elm_ref_of. Qed.
Lemma r_elm_of_set : forall (f : I -> bool) l, hd_not f l -> rej (p_elm_of_set f) l false.
Proof. intros f l H. unfold p_elm_of_set. apply r_map. now apply r_elm_ref_of. Qed.
Lemma a_none_ref_of : forall (f : I -> bool) x rest, f x = false -> acc (p_none_ref_of f) [x] rest x.
Proof. intros f x rest H pre. unfold p_none_ref_of. rewrite input_at. cbn. now rewrite H. Qed.
Lemma r_none_ref_of : forall (f : I -> bool) l, hd_not (fun x => negb (f x)) l -> rej (p_none_ref_of f) l false.
Proof.
  intros f l H pre. unfold p_none_ref_of. rewrite input_at. unfold failed_with_uncommitted.
  destruct l as [|x l]; [eauto|]. cbn in H. apply negb_false_iff in H. rewrite H. cbn. eauto.
Qed.
Lemma a_none_of_set : forall (f : I -> bool) x rest, f x = false -> acc (p_none_of_set f) [x] rest x.
Proof. intros f x rest H. unfold p_none_of_set. apply (a_map (fun x => x)). now apply a_none_ref_of. Qed.
Lemma r_none_of_set : forall (f : I -> bool) l, hd_not (fun x => negb (f x)) l -> rej (p_none_of_set f) l false.
Proof. intros f l H. unfold p_none_of_set. apply r_map. now apply r_none_ref_of. Qed.

(** *** Repetition *)
(** [chain p s rest vs]: [s] is the concatenation of texts accepted one after the other. *)
Inductive chain {A} (p : parser I A) : list I -> list I -> list A -> Prop :=
| chain_nil : forall rest, chain p [] rest []
| chain_cons : forall s t rest v vs, acc p s (t ++ rest) v -> s <> [] -> chain p t rest vs -> chain p (s ++ t) rest (v :: vs).
(** The same with separators before each element. *)
Inductive schain {A B} (p : parser I A) (sep : parser I B) : list I -> list I -> list A -> Prop :=
| schain_nil : forall rest, schain p sep [] rest []
| schain_cons : forall d s t rest w v vs, acc sep d (s ++ t ++ rest) w -> acc p s (t ++ rest) v -> d ++ s <> [] ->
    schain p sep t rest vs -> schain p sep (d ++ s ++ t) rest (v :: vs).

Lemma schain_len : forall A B (p : parser I A) (sep : parser I B) s rest vs, schain p sep s rest vs -> length vs <= length s.
Proof.
  intros A B p sep s rest vs H. induction H as [|d s t rest w v vs H1 H2 Hne H3 IH]; cbn; [lia|].
  rewrite !app_length. assert (0 < length (d ++ s)) by (destruct (d ++ s); [congruence|cbn; lia]).
  rewrite app_length in *. lia.
Qed.
Lemma schain_tail : forall A B (p : parser I A) (sep : parser I B) s rest vs, schain p sep s rest vs ->
  forall pre count, (forall pre', Fails sep (pre' ++ rest) (length pre') \/
      exists w m, sep (pre' ++ rest) (length pre') = Success w m /\ m = 0 /\ Fails p (pre' ++ rest) (length pre')) ->
  tail p sep BUnbounded (pre ++ s ++ rest) (length pre) count vs (length s).
Proof.
  intros A B p sep s rest vs H. induction H as [rest|d s t rest w v vs H1 H2 Hne H3 IH]; intros pre count Hend.
  - cbn [app length]. destruct (Hend pre) as [Hf|(w & m & Hs & -> & Hf)].
    + apply tail_nosep; [cbn; tauto|exact Hf].
    + eapply tail_dangling; [cbn; tauto|exact Hs|]. now rewrite Nat.add_0_r.
  - rewrite <- !app_assoc.
    replace (length (d ++ s ++ t)) with (length d + length s + length t) by (rewrite !app_length; lia).
    eapply tail_more.
    + cbn; tauto.
    + apply H1.
    + exact (acc_next pre d H2).
    + specialize (IH (pre ++ d ++ s) (S count) Hend). rewrite !app_length in IH. rewrite <- !app_assoc in IH.
      replace (length pre + length d + length s) with (length pre + (length d + length s)) by lia. exact IH.
Qed.
Lemma a_repeat_sep : forall A B (p : parser I A) (sep : parser I B) min s t rest v vs c,
  acc p s (t ++ rest) v -> schain p sep t rest vs -> rej sep rest c -> min <= S (length vs) ->
  acc (p_repeat_sep p (rg_from min) (Some sep)) (s ++ t) rest (v :: vs).
Proof.
  intros A B p sep min s t rest v vs c H1 H2 H3 Hm pre. unfold p_repeat_sep, repeat_sep_fuel. rewrite <- app_assoc, H1.
  rewrite (@rep_loop_complete I A B p sep BUnbounded (pre ++ s ++ t ++ rest) (length pre + length s) 1 vs (length t)).
  - cbn [rev app rep_finish rg_start rg_from]. cbn [length]. destruct (Nat.ltb_spec (S (length vs)) min); [lia|].
    now rewrite app_length.
  - pose proof (@schain_tail A B p sep t rest vs H2 (pre ++ s) 1) as T. rewrite app_length, <- app_assoc in T. apply T.
    intros pre'. left. destruct (H3 pre') as [e E]. now exists e, c.
  - reflexivity.
  - unfold rep_fuel. cbn [rg_from rg_end bound_count]. pose proof (schain_len H2). rewrite !app_length. lia.
Qed.
Lemma a_repeat_sep_none : forall A B (p : parser I A) (sep : option (parser I B)) rest c,
  rej p rest c -> acc (p_repeat_sep p (rg_from 0) sep) [] rest [].
Proof. intros A B p sep rest c H pre. unfold p_repeat_sep, repeat_sep_fuel. cbn [app]. now destruct (H pre) as [e ->]. Qed.
Lemma chain_schain : forall A (p : parser I A) s rest vs, chain p s rest vs -> schain p (p_successful tt) s rest vs.
Proof.
  intros A p s rest vs H. induction H as [|s t rest v vs H1 Hne H2 IH]; [constructor|].
  change (s ++ t) with ([] ++ s ++ t). econstructor; [apply a_successful|exact H1|exact Hne|exact IH].
Qed.
Lemma a_repeat : forall A B (p : parser I A) min s rest vs c,
  chain p s rest vs -> rej p rest c -> min <= length vs ->
  acc (p_repeat_sep p (rg_from min) (None : option (parser I B))) s rest vs.
Proof.
  intros A B p min s rest vs c H1 H2 Hm pre. unfold p_repeat_sep. rewrite repeat_none. unfold repeat_sep_fuel.
  destruct H1 as [rest|s t rest v vs H1 Hne H3].
  - cbn [app]. destruct (H2 pre) as [e ->]. cbn in *. destruct min; [reflexivity|lia].
  - rewrite <- app_assoc, H1.
    rewrite (@rep_loop_complete I A unit p (p_successful tt) BUnbounded (pre ++ s ++ t ++ rest) (length pre + length s) 1 vs (length t)).
    + cbn [rev app rep_finish rg_start rg_from]. cbn [length]. destruct (Nat.ltb_spec (S (length vs)) min); [cbn in Hm; lia|].
      now rewrite app_length.
    + pose proof (@schain_tail A unit p (p_successful tt) t rest vs (chain_schain H3) (pre ++ s) 1) as T.
      rewrite app_length, <- app_assoc in T. apply T.
      intros pre'. right. exists tt, 0. repeat split. destruct (H2 pre') as [e E]. now exists e, c.
    + reflexivity.
    + unfold rep_fuel. cbn [rg_from rg_end bound_count]. pose proof (schain_len (chain_schain H3)). rewrite !app_length. lia.
Qed.
Lemma a_many0 : forall A (p : parser I A) s rest vs c, chain p s rest vs -> rej p rest c -> acc (p_many0 p) s rest vs.
Proof. intros A p s rest vs c H1 H2. unfold p_many0. eapply a_repeat; eauto. lia. Qed.
Lemma a_many1 : forall A (p : parser I A) s rest vs c, chain p s rest vs -> rej p rest c -> vs <> [] -> acc (p_many1 p) s rest vs.
Proof. intros A p s rest vs c H1 H2 Hv. unfold p_many1. eapply a_repeat; eauto. destruct vs; [congruence|cbn; lia]. Qed.
Lemma r_many1 : forall A (p : parser I A) l c, rej p l c -> rej (p_many1 p) l false.
Proof.
  intros A p l c H pre. unfold p_many1, p_repeat_sep, repeat_sep_fuel. destruct (H pre) as [e ->].
  cbn. rewrite Nat.add_0_r, input_at. unfold failed_with_uncommitted. eauto.
Qed.
Lemma r_many1_sep : forall A B (p : parser I A) (sep : parser I B) l c, rej p l c -> rej (p_many1_sep p sep) l false.
Proof.
  intros A B p sep l c H pre. unfold p_many1_sep, p_repeat_sep, repeat_sep_fuel. destruct (H pre) as [e ->].
  cbn. rewrite Nat.add_0_r, input_at. unfold failed_with_uncommitted. eauto.
Qed.
(** The separator is consumed although no element follows. *)
Lemma schain_tail_dangling : forall A B (p : parser I A) (sep : parser I B) s d rest vs w c, schain p sep s (d ++ rest) vs ->
  acc sep d rest w -> rej p rest c ->
  forall pre count, tail p sep BUnbounded (pre ++ s ++ d ++ rest) (length pre) count vs (length s + length d).
Proof.
  intros A B p sep s d rest vs w c H Hd Hr. remember (d ++ rest) as r eqn:Er.
  induction H as [r|d' s t r w' v vs H1 H2 Hne H3 IH]; intros pre count.
  - subst r. cbn [app List.length Nat.add]. eapply tail_dangling; [cbn; tauto|apply Hd|].
    destruct (rej_next pre d Hr) as [e E]. now exists e, c.
  - rewrite <- !app_assoc.
    replace (length (d' ++ s ++ t) + length d) with (length d' + length s + (length t + length d)) by (rewrite !app_length; lia).
    eapply tail_more.
    + cbn; tauto.
    + apply H1.
    + exact (acc_next pre d' H2).
    + specialize (IH Er (pre ++ d' ++ s) (S count)). rewrite !app_length in IH. rewrite <- !app_assoc in IH.
      replace (length pre + length d' + length s) with (length pre + (length d' + length s)) by lia. exact IH.
Qed.
Lemma a_repeat_sep_dangling : forall A B (p : parser I A) (sep : parser I B) min s t d rest v vs w c,
  acc p s (t ++ d ++ rest) v -> schain p sep t (d ++ rest) vs -> acc sep d rest w -> rej p rest c -> min <= S (length vs) ->
  acc (p_repeat_sep p (rg_from min) (Some sep)) (s ++ t ++ d) rest (v :: vs).
Proof.
  intros A B p sep min s t d rest v vs w c H1 H2 Hd Hr Hm pre. unfold p_repeat_sep, repeat_sep_fuel. rewrite <- !app_assoc, H1.
  rewrite (@rep_loop_complete I A B p sep BUnbounded (pre ++ s ++ t ++ d ++ rest) (length pre + length s) 1 vs (length t + length d)).
  - cbn [rev app rep_finish rg_start rg_from]. cbn [length]. destruct (Nat.ltb_spec (S (length vs)) min); [lia|].
    now rewrite !app_length.
  - pose proof (@schain_tail_dangling A B p sep t d rest vs w c H2 Hd Hr (pre ++ s) 1) as T. rewrite app_length, <- app_assoc in T. exact T.
  - reflexivity.
  - unfold rep_fuel. cbn [rg_from rg_end bound_count]. pose proof (schain_len H2). rewrite !app_length. lia.
Qed.
(** Exactly n times. *)
Lemma chain_tail_max : forall A (p : parser I A) s rest vs, chain p s rest vs ->
  forall pre count n, count + length vs = n -> tail p (p_successful tt) (BIncluded n) (pre ++ s ++ rest) (length pre) count vs (length s).
Proof.
  intros A p s rest vs H. induction H as [rest|s t rest v vs H1 Hne H2 IH]; intros pre count n Hn; cbn [List.length] in Hn.
  - apply tail_max. cbn. lia.
  - rewrite <- app_assoc, app_length. apply tail_more with (w := tt) (m := 0) (n := length s).
    + cbn. lia.
    + reflexivity.
    + rewrite Nat.add_0_r. apply H1.
    + rewrite Nat.add_0_r. specialize (IH (pre ++ s) (S count) n ltac:(lia)). rewrite app_length, <- app_assoc in IH. exact IH.
Qed.
Lemma a_count : forall A (p : parser I A) n s rest vs, chain p s rest vs -> length vs = n -> 1 <= n -> acc (p_count p n) s rest vs.
Proof.
  intros A p n s rest vs H Hl Hn pre. unfold p_count, p_repeat_sep. rewrite repeat_none. unfold repeat_sep_fuel.
  destruct H as [rest|s t rest v vs H1 Hne H3]; [cbn in Hl; lia|]. cbn [List.length] in Hl.
  rewrite <- app_assoc, H1.
  rewrite (@rep_loop_complete I A unit p (p_successful tt) (BIncluded n) (pre ++ s ++ t ++ rest) (length pre + length s) 1 vs (length t)).
  - cbn [rev app rep_finish rg_start rg_in]. cbn [length]. destruct (Nat.ltb_spec (S (length vs)) n); [lia|]. now rewrite app_length.
  - pose proof (@chain_tail_max A p t rest vs H3 (pre ++ s) 1 n Hl) as T. rewrite app_length, <- app_assoc in T. exact T.
  - reflexivity.
  - unfold rep_fuel. cbn [rg_in rg_end bound_count]. lia.
Qed.
(** Repetition of a single-element class. *)
Lemma chain_class : forall (p : parser I I) (f : I -> bool) s rest,
  (forall x rest, f x = true -> acc p [x] rest x) -> Forall (fun x => f x = true) s -> chain p s rest s.
Proof.
  intros p f s rest Hp H. induction H as [|x s Hx H IH]; [constructor|].
  change (x :: s) with ([x] ++ s) at 1. constructor; [now apply Hp|discriminate|exact IH].
Qed.

(** *** Literals *)
Lemma a_seq_by : forall (eqb : I -> I -> bool) s rest, (forall a b, eqb a b = true <-> a = b) -> acc (p_seq eqb s) s rest s.
Proof.
  intros eqb s rest He pre. unfold p_seq. rewrite input_at. apply erase_success. rewrite erase_seq_nocase with (i2 := []) (o2 := 0).
  apply lit_spec; [exact He|]. left. split; [now exists rest|reflexivity].
Qed.
Lemma a_tag_by : forall (eqb : I -> I -> bool) s rest, (forall a b, eqb a b = true <-> a = b) -> acc (p_tag_by eqb s) s rest s.
Proof.
  intros eqb s rest He pre. unfold p_tag_by. rewrite input_at. apply erase_success. rewrite erase_tag_nocase with (i2 := []) (o2 := 0).
  apply lit_spec; [exact He|]. left. split; [now exists rest|reflexivity].
Qed.
Lemma r_seq_hd : forall (eqb : I -> I -> bool) c s l, (forall a b, eqb a b = true <-> a = b) ->
  match l with [] => True | x :: _ => x <> c end -> rej (p_seq eqb (c :: s)) l false.
Proof.
  intros eqb c s l He H pre. unfold p_seq. rewrite input_at. cbn. unfold failed_with_uncommitted.
  destruct l as [|x l]; [eauto|]. destruct (eqb c x) eqn:E; [apply He in E; congruence|]. cbn. eauto.
Qed.
Lemma r_tag_hd : forall (eqb : I -> I -> bool) c s l, (forall a b, eqb a b = true <-> a = b) ->
  match l with [] => True | x :: _ => x <> c end -> rej (p_tag_by eqb (c :: s)) l false.
Proof.
  intros eqb c s l He H pre. unfold p_tag_by. rewrite input_at. cbn. unfold failed_with_uncommitted.
  destruct l as [|x l]; [eauto|]. destruct (eqb c x) eqn:E; [apply He in E; congruence|]. cbn. eauto.
Qed.
End Runs.

(** Rejection with either commit status. *)
Lemma rej_fails : forall I A (p : parser I A) l c pre, rej p l c -> Fails p (pre ++ l) (length pre).
Proof. intros I A p l c pre H. destruct (H pre) as [e E]. now exists e, c. Qed.

(** *** u8 / char *)
Lemma eqbN : forall a b, N.eqb a b = true <-> a = b.
Proof. exact N.eqb_eq. Qed.
Lemma a_elm : forall x rest, acc (p_elm x) [x] rest x.
Proof. intros x rest. unfold p_elm, p_elm_eq. apply a_elm_pred. apply N.eqb_refl. Qed.
Lemma r_elm : forall x l, match l with [] => True | y :: _ => y <> x end -> rej (p_elm x) l false.
Proof.
  intros x l H. unfold p_elm, p_elm_eq. apply r_elm_pred. destruct l as [|y l]; [exact Logic.I|]. cbn.
  destruct (N.eqb_spec y x); [congruence|reflexivity].
Qed.
Lemma a_elm_ref : forall x rest, acc (p_elm_ref x) [x] rest x.
Proof. intros x rest. unfold p_elm_ref, p_elm_ref_eq. apply a_elm_pred_ref. apply N.eqb_refl. Qed.
Lemma r_elm_ref : forall x l, match l with [] => True | y :: _ => y <> x end -> rej (p_elm_ref x) l false.
Proof.
  intros x l H. unfold p_elm_ref, p_elm_ref_eq. apply r_elm_pred_ref. destruct l as [|y l]; [exact Logic.I|]. cbn.
  destruct (N.eqb_spec y x); [congruence|reflexivity].
Qed.
Lemma a_elm_of : forall l x rest, In x l -> acc (p_elm_of l) [x] rest x.
Proof. intros l x rest H. apply a_elm_of_set. now apply set_contains_in. Qed.
Lemma r_elm_of : forall s l, match l with [] => True | y :: _ => ~ In y s end -> rej (p_elm_of s) l false.
Proof.
  intros s l H. apply r_elm_of_set. destruct l as [|y l]; [exact Logic.I|]. cbn.
  destruct (set_contains s y) eqn:E; [apply set_contains_in in E; tauto|reflexivity].
Qed.
Lemma a_none_of : forall l x rest, ~ In x l -> acc (p_none_of l) [x] rest x.
Proof.
  intros l x rest H. apply a_none_of_set. destruct (set_contains l x) eqn:E; [apply set_contains_in in E; tauto|reflexivity].
Qed.
Lemma r_none_of : forall s l, match l with [] => True | y :: _ => In y s end -> rej (p_none_of s) l false.
Proof.
  intros s l H. apply r_none_of_set. destruct l as [|y l]; [exact Logic.I|]. cbn. apply negb_false_iff. now apply set_contains_in.
Qed.
Lemma a_seqN : forall s rest, acc (p_seqN s) s rest s.
Proof. intros. apply a_seq_by. exact eqbN. Qed.
Lemma r_seqN : forall c s l, match l with [] => True | y :: _ => y <> c end -> rej (p_seqN (c :: s)) l false.
Proof. intros. apply r_seq_hd; [exact eqbN|assumption]. Qed.
Lemma a_tag : forall s rest, acc (p_tag s) s rest s.
Proof. intros. apply a_tag_by. exact eqbN. Qed.
Lemma r_tag : forall c s l, match l with [] => True | y :: _ => y <> c end -> rej (p_tag (c :: s)) l false.
Proof. intros. apply r_tag_hd; [exact eqbN|assumption]. Qed.
