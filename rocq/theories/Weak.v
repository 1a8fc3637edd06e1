(** Partial-correctness triples: like [hoare], but the run may panic.  It never diverges. *)
From Verif Require Import Base Core Comb Closure RepFacts LitFacts Hoare.
Set Implicit Arguments.

Definition whoare {I A} (p : parser I A) (Q : A -> list I -> Prop) : Prop :=
  forall inp off, off <= length inp ->
  match p inp off with
  | Success v n => off + n <= length inp /\ Q v (firstn n (skipn off inp))
  | Failure _ _ | Panic => True
  | Diverge => False
  end.
Lemma w_success : forall I A (p : parser I A) Q inp off v n,
  whoare p Q -> off <= length inp -> p inp off = Success v n ->
  off + n <= length inp /\ Q v (firstn n (skipn off inp)).
Proof. intros I A p Q inp off v n H Ho E. specialize (H inp off Ho). now rewrite E in H. Qed.
Arguments w_success {I A p Q inp off v n} _ _ _.
Lemma w_bounded : forall I A (p : parser I A) Q, whoare p Q -> bounded p.
Proof. intros I A p Q H inp off v n Ho E. now apply (w_success H Ho) in E. Qed.

Section Rules.
Context {I : Type}.
Lemma w_hoare : forall A (p : parser I A) Q, hoare p Q -> whoare p Q.
Proof. intros A p Q H inp off Ho. hrun H inp off Ho a n. Qed.
Lemma w_weaken : forall A (p : parser I A) (Q R : A -> list I -> Prop),
  whoare p Q -> (forall v s, Q v s -> R v s) -> whoare p R.
Proof. intros A p Q R H HQ inp off Ho. hrun H inp off Ho a n. destruct L. auto. Qed.
Lemma w_map : forall A B (p : parser I A) (f : A -> B) Q (R : B -> list I -> Prop),
  whoare p Q -> (forall v s, Q v s -> R (f v) s) -> whoare (p_map p f) R.
Proof. intros A B p f Q R H HQ inp off Ho. unfold p_map. hrun H inp off Ho a n. destruct L. auto. Qed.
Lemma w_map_panic : forall A B (p : parser I A) (f : A -> option B) Q (R : B -> list I -> Prop),
  whoare p Q -> (forall v s b, Q v s -> f v = Some b -> R b s) -> whoare (p_map_panic p f) R.
Proof.
  intros A B p f Q R H HQ inp off Ho. unfold p_map_panic. hrun H inp off Ho a n. destruct L as [L1 L2].
  destruct (f a) as [b|] eqn:E; [eauto|exact Logic.I].
Qed.
Lemma w_or : forall A (p q : parser I A) Q, whoare p Q -> whoare q Q -> whoare (p_or p q) Q.
Proof.
  intros A p q Q Hp Hq inp off Ho. unfold p_or. hrun Hp inp off Ho a n.
  match goal with |- context [negb ?b] => destruct (negb b) end; [apply (Hq inp off Ho)|exact Logic.I].
Qed.
Lemma w_attempt : forall A (p : parser I A) Q, whoare p Q -> whoare (p_attempt p) Q.
Proof. intros A p Q H inp off Ho. unfold p_attempt. hrun H inp off Ho a n. destruct committed; exact Logic.I. Qed.
Lemma w_and : forall A B (p : parser I A) (q : parser I B) P Q (R : A * B -> list I -> Prop),
  whoare p P -> whoare q Q -> (forall a b s t, P a s -> Q b t -> R (a, b) (s ++ t)) -> whoare (p_and p q) R.
Proof.
  intros A B p q P Q R Hp Hq HR inp off Ho. unfold p_and. hrun Hp inp off Ho a n. destruct L as [L1 L2].
  pose proof (Hq inp _ L1) as L3. destruct (q inp (off + n)) as [b m|? ?| |] eqn:E2; cbn; try exact L3. destruct L3 as [L4 L5].
  split; [lia|]. rewrite firstn_split. now apply HR.
Qed.
Lemma w_skip_left : forall A B (p : parser I A) (q : parser I B) P Q (R : B -> list I -> Prop),
  whoare p P -> whoare q Q -> (forall a b s t, P a s -> Q b t -> R b (s ++ t)) -> whoare (p_skip_left p q) R.
Proof.
  intros A B p q P Q R Hp Hq HR inp off Ho. unfold p_skip_left. hrun Hp inp off Ho a n. destruct L as [L1 L2].
  pose proof (Hq inp _ L1) as L3. destruct (q inp (off + n)) as [b m|? ?| |] eqn:E2; cbn; try exact L3. destruct L3 as [L4 L5].
  split; [lia|]. rewrite firstn_split. eapply HR; eassumption.
Qed.
Lemma w_skip_right : forall A B (p : parser I A) (q : parser I B) P Q (R : A -> list I -> Prop),
  whoare p P -> whoare q Q -> (forall a b s t, P a s -> Q b t -> R a (s ++ t)) -> whoare (p_skip_right p q) R.
Proof.
  intros A B p q P Q R Hp Hq HR inp off Ho. unfold p_skip_right. hrun Hp inp off Ho a n. destruct L as [L1 L2].
  pose proof (Hq inp _ L1) as L3. destruct (q inp (off + n)) as [b m|? ?| |] eqn:E2; cbn; try exact L3. destruct L3 as [L4 L5].
  split; [lia|]. rewrite firstn_split. eapply HR; eassumption.
Qed.
Lemma w_surround : forall A B C (l : parser I A) (p : parser I B) (r : parser I C) L P R (Q : B -> list I -> Prop),
  whoare l L -> whoare p P -> whoare r R ->
  (forall a b c s1 s2 s3, L a s1 -> P b s2 -> R c s3 -> Q b (s1 ++ s2 ++ s3)) -> whoare (p_surround l p r) Q.
Proof.
  intros A B C l p r L P R Q Hl Hp Hr HQ. unfold p_surround.
  first
  [ eapply w_skip_left with (Q := fun b t => exists c s2 s3, t = s2 ++ s3 /\ P b s2 /\ R c s3); [exact Hl| |];
    [eapply w_skip_right; [exact Hp|exact Hr|]; intros b c s t H1 H2; exists c, s, t; auto
    |intros a b s t H1 (c & s2 & s3 & -> & H2 & H3); eapply HQ; eassumption]
  | eapply w_skip_right with (P := fun b t => exists a s1 s2, t = s1 ++ s2 /\ L a s1 /\ P b s2); [|exact Hr|];
    [eapply w_skip_left; [exact Hl|exact Hp|]; intros a b s t H1 H2; exists a, s, t; auto
    |intros b c s t (a & s1 & s2 & -> & H2 & H3) H1; rewrite <- app_assoc; eapply HQ; eassumption] ].
Qed.
Lemma w_opt : forall A (p : parser I A) P (R : option A -> list I -> Prop),
  whoare p P -> (forall a s, P a s -> R (Some a) s) -> R None [] -> whoare (p_opt p) R.
Proof.
  intros A p P R H H1 H2. unfold p_opt. apply w_or.
  - eapply w_map; [apply w_attempt, H|exact H1].
  - apply w_hoare, h_successful, H2.
Qed.
Lemma w_lazy : forall A (f : unit -> parser I A) Q, whoare (f tt) Q -> whoare (p_lazy f) Q.
Proof. intros A f Q H. exact H. Qed.

(** Repetition with a separator; the texts between items must not be empty when there is no upper bound. *)
Lemma w_repeat_sep : forall A B (p : parser I A) (sep : parser I B) r Q S (R : list A -> list I -> Prop),
  whoare p Q -> whoare sep S -> (forall v s w t, Q v s -> S w t -> t ++ s <> []) ->
  (min_ok (rg_start r) 0 -> R [] []) ->
  (forall v s vs t, Q v s -> SepTail Q S vs t -> min_ok (rg_start r) (length (v :: vs)) -> R (v :: vs) (s ++ t)) ->
  whoare (p_repeat_sep p r (Some sep)) R.
Proof.
  intros A B p sep r Q S R Hp Hs Hn R0 R1 inp off Ho.
  pose proof (w_bounded Hp) as Bp. pose proof (w_bounded Hs) as Bs.
  assert (Tl : forall cur count vs k, tail p sep (rg_end r) inp cur count vs k -> cur <= length inp ->
    cur + k <= length inp /\ SepTail Q S vs (firstn k (skipn cur inp))).
  { intros cur count vs k H. induction H; intros Hc.
    - split; [lia|constructor].
    - split; [lia|constructor].
    - destruct (w_success Hs Hc H0). split; [lia|]. eapply st_dangling; eassumption.
    - destruct (w_success Hs Hc H0) as [B1 S1]. destruct (w_success Hp B1 H1) as [B2 Q2].
      destruct (IHtail B2) as [B3 T3]. split; [lia|].
      rewrite !firstn_split, <- app_assoc, Nat.add_assoc. econstructor; eassumption. }
  destruct (p_repeat_sep p r (Some sep) inp off) as [vs l|e c| |] eqn:E.
  - apply repeat_sep_success in E; try assumption. destruct E as [E Hm]. destruct E as [E|v n vs k E Ht].
    + split; [lia|]. apply R0, Hm.
    + destruct (w_success Hp Ho E) as [B1 Q1]. destruct (Tl _ _ _ _ Ht B1) as [B2 T2]. split; [lia|].
      rewrite firstn_split. now apply R1.
  - exact Logic.I.
  - exact Logic.I.
  - unfold p_repeat_sep, repeat_sep_fuel in E.
    assert (G : forall rr : rep_result A, rr <> RDiverge -> rep_finish (I := I) (rg_start r) inp off rr <> Diverge).
    { intros rr G1 GE. destruct rr as [its al| |]; cbn [rep_finish] in GE; try discriminate; [|congruence].
      destruct (rg_start r); try discriminate. destruct (_ <? _); [|discriminate].
      destruct (ps_input _ _); discriminate. }
    revert E. apply G. pose proof (Hp inp off Ho) as Lp.
    destruct (p inp off) as [v n|e c| |]; try discriminate; try tauto. destruct Lp as [B1 _].
    unfold rep_fuel. apply rep_loop_terminates; auto.
    + intros pos Hpos Ed. pose proof (Hp inp pos Hpos). now rewrite Ed in *.
    + intros pos Hpos Ed. pose proof (Hs inp pos Hpos). now rewrite Ed in *.
    + intros _ pos w m v' n' Hpos E1 E2. destruct (w_success Hs Hpos E1) as [B2 S1]. destruct (w_success Hp B2 E2) as [B3 Q1].
      destruct m; [|lia]. destruct n'; [|lia]. exfalso. apply (Hn _ _ _ _ Q1 S1). reflexivity.
    + cbn [List.length]. lia.
Qed.
Lemma w_repeat_nosep : forall A B (p : parser I A) r Q (R : list A -> list I -> Prop),
  whoare p Q -> (forall v s, Q v s -> s <> []) ->
  (forall vs s, Items Q vs s -> min_ok (rg_start r) (length vs) -> R vs s) ->
  whoare (p_repeat_sep p r (None : option (parser I B))) R.
Proof.
  intros A B p r Q R Hp Hn HR inp off Ho.
  assert (E : p_repeat_sep p r (None : option (parser I B)) inp off = p_repeat_sep p r (Some (p_successful tt)) inp off).
  { unfold p_repeat_sep. apply repeat_none. }
  rewrite E. clear E.
  refine (@w_repeat_sep A unit p (p_successful tt) r Q (fun _ s => s = []) R Hp _ _ _ _ inp off Ho).
  - apply w_hoare, h_successful. reflexivity.
  - intros v s w t HQ ->. apply (Hn _ _ HQ).
  - intros Hm. apply HR; [constructor|exact Hm].
  - intros v s vs t HQ HT Hm. apply HR; [|exact Hm]. constructor; [exact HQ|]. now apply septail_unit.
Qed.
Lemma w_many0 : forall A (p : parser I A) Q (R : list A -> list I -> Prop),
  whoare p Q -> (forall v s, Q v s -> s <> []) -> (forall vs s, Items Q vs s -> R vs s) -> whoare (p_many0 p) R.
Proof. intros A p Q R H1 H2 H3. eapply w_repeat_nosep; eauto. Qed.
Lemma w_many1 : forall A (p : parser I A) Q (R : list A -> list I -> Prop),
  whoare p Q -> (forall v s, Q v s -> s <> []) -> (forall vs s, Items Q vs s -> vs <> [] -> R vs s) -> whoare (p_many1 p) R.
Proof.
  intros A p Q R H1 H2 H3. eapply w_repeat_nosep; eauto. intros vs s Hi Hm. apply H3; [exact Hi|].
  cbn in Hm. destruct vs; [cbn in Hm; lia|discriminate].
Qed.
Lemma w_many0_sep : forall A B (p : parser I A) (sep : parser I B) Q S (R : list A -> list I -> Prop),
  whoare p Q -> whoare sep S -> (forall v s w t, Q v s -> S w t -> t ++ s <> []) ->
  R [] [] -> (forall v s vs t, Q v s -> SepTail Q S vs t -> R (v :: vs) (s ++ t)) -> whoare (p_many0_sep p sep) R.
Proof. intros A B p sep Q S R H1 H2 H3 H4 H5. eapply w_repeat_sep; eauto. Qed.
End Rules.
