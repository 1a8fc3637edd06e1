(** Partial-correctness triples that see the text after the consumed one: whenever the parser succeeds, the value, the
    consumed text and the rest satisfy Q. *)
From Verif Require Import Base Core Comb Closure RepFacts LitFacts Hoare Weak Runs.
Set Implicit Arguments.
Local Open Scope nat_scope.
Local Open Scope list_scope.

Definition reads {I A} (p : parser I A) (Q : A -> list I -> list I -> Prop) : Prop :=
  forall pre l v n, p (pre ++ l) (length pre) = Success v n -> exists s r, l = s ++ r /\ length s = n /\ Q v s r.

Section Rules.
Context {I : Type}.
Lemma rd_hoare : forall A (p : parser I A) Q, hoare p Q -> reads p (fun v s _ => Q v s).
Proof.
  intros A p Q H pre l v n E. assert (B0 : length pre <= length (pre ++ l)) by (rewrite app_length; lia). destruct (h_success H B0 E) as [B K]. rewrite app_length in B.
  rewrite skipn_app, skipn_all, Nat.sub_diag in K. cbn [skipn app] in K. exists (firstn n l), (skipn n l).
  split; [now rewrite firstn_skipn|]. split; [apply firstn_length_le; lia|exact K].
Qed.
Lemma rd_bounded : forall A (p : parser I A) Q, reads p Q -> bounded p.
Proof.
  intros A p Q H inp off v n Ho E. rewrite <- (firstn_skipn off inp) in E.
  assert (L : length (firstn off inp) = off) by (apply firstn_length_le; lia). rewrite <- L in E at 3.
  destruct (H _ _ _ _ E) as (s & r & Es & Ls & _). apply (f_equal (@length I)) in Es. rewrite skipn_length, app_length in Es. lia.
Qed.
Lemma rd_weaken : forall A (p : parser I A) (Q R : A -> list I -> list I -> Prop), reads p Q -> (forall v s r, Q v s r -> R v s r) -> reads p R.
Proof. intros A p Q R H K pre l v n E. destruct (H _ _ _ _ E) as (s & r & -> & L & HQ). exists s, r. auto. Qed.
Lemma rd_map : forall A B (p : parser I A) (f : A -> B) Q (R : B -> list I -> list I -> Prop),
  reads p Q -> (forall v s r, Q v s r -> R (f v) s r) -> reads (p_map p f) R.
Proof.
  intros A B p f Q R H K pre l v n E. unfold p_map in E. destruct (p (pre ++ l) (length pre)) as [a m|? ?| |] eqn:E1; try discriminate. inv E.
  destruct (H _ _ _ _ E1) as (s & r & -> & L & HQ). exists s, r. auto.
Qed.
Lemma rd_map_panic : forall A B (p : parser I A) (f : A -> option B) Q (R : B -> list I -> list I -> Prop),
  reads p Q -> (forall v s r b, Q v s r -> f v = Some b -> R b s r) -> reads (p_map_panic p f) R.
Proof.
  intros A B p f Q R H K pre l v n E. unfold p_map_panic in E. destruct (p (pre ++ l) (length pre)) as [a m|? ?| |] eqn:E1; try discriminate.
  destruct (f a) as [b|] eqn:Ef; [|discriminate]. inv E. destruct (H _ _ _ _ E1) as (s & r & -> & L & HQ). exists s, r. eauto.
Qed.
Lemma rd_map_res : forall A B E (p : parser I A) (f : A -> B + E) Q (R : B -> list I -> list I -> Prop),
  reads p Q -> (forall v s r b, Q v s r -> f v = inl b -> R b s r) -> reads (p_map_res p f) R.
Proof.
  intros A B E0 p f Q R H K pre l v n E. unfold p_map_res in E. destruct (p (pre ++ l) (length pre)) as [a m|? ?| |] eqn:E1; try discriminate.
  destruct (f a) as [b|] eqn:Ef; [|destruct (ps_input _ _); discriminate]. inv E. destruct (H _ _ _ _ E1) as (s & r & -> & L & HQ). exists s, r. eauto.
Qed.
Lemma rd_collect : forall A (p : parser I A) (Q : A -> list I -> list I -> Prop) (R : list I -> list I -> list I -> Prop),
  reads p Q -> (forall v s r, Q v s r -> R s s r) -> reads (p_collect p) R.
Proof.
  intros A p Q R H K pre l v n E. unfold p_collect in E. destruct (p (pre ++ l) (length pre)) as [a m|? ?| |] eqn:E1; try discriminate.
  destruct (H _ _ _ _ E1) as (s & r & -> & L & HQ). subst m. rewrite slice_at in E. inv E.
  exists v, r. eauto.
Qed.
Lemma rd_discard : forall A (p : parser I A) Q (R : unit -> list I -> list I -> Prop), reads p Q -> (forall v s r, Q v s r -> R tt s r) -> reads (p_discard p) R.
Proof.
  intros A p Q R H K pre l v n E. unfold p_discard in E. destruct (p (pre ++ l) (length pre)) as [a m|? ?| |] eqn:E1; try discriminate. inv E.
  destruct (H _ _ _ _ E1) as (s & r & -> & L & HQ). exists s, r. eauto.
Qed.
Lemma rd_or : forall A (p q : parser I A) Q, reads p Q -> reads q Q -> reads (p_or p q) Q.
Proof.
  intros A p q Q Hp Hq pre l v n E. unfold p_or in E. destruct (p (pre ++ l) (length pre)) as [a m|? c| |] eqn:E1; try discriminate; [inv E; eauto|].
  destruct c; [discriminate|]. cbn in E. eauto.
Qed.
Lemma rd_attempt : forall A (p : parser I A) Q, reads p Q -> reads (p_attempt p) Q.
Proof.
  intros A p Q H pre l v n E. unfold p_attempt in E. destruct (p (pre ++ l) (length pre)) as [a m|? c| |] eqn:E1; try discriminate; [inv E; eauto|].
  now destruct c.
Qed.
(** What happens after [p]. *)
Lemma rd_next : forall B (q : parser I B) Q pre s r v n m, reads q Q -> length s = m -> q (pre ++ s ++ r) (length pre + m) = Success v n ->
  exists t u, r = t ++ u /\ length t = n /\ Q v t u.
Proof. intros B q Q pre s r v n m H <- E. rewrite app_assoc, <- app_length in E. now apply H in E. Qed.
Lemma rd_and : forall A B (p : parser I A) (q : parser I B) P Q (R : A * B -> list I -> list I -> Prop),
  reads p P -> reads q Q -> (forall a b s t r, P a s (t ++ r) -> Q b t r -> R (a, b) (s ++ t) r) -> reads (p_and p q) R.
Proof.
  intros A B p q P Q R Hp Hq K pre l v n E. unfold p_and in E. destruct (p (pre ++ l) (length pre)) as [a m|? ?| |] eqn:E1; try discriminate.
  destruct (Hp _ _ _ _ E1) as (s & r & -> & L & HP). destruct (q (pre ++ s ++ r) (length pre + m)) as [b k|? ?| |] eqn:E2; cbn in E; try discriminate. inv E.
  destruct (@rd_next _ _ _ _ _ _ _ _ _ Hq eq_refl E2) as (t & u & -> & Lt & HQ). exists (s ++ t), u. rewrite <- app_assoc, app_length. repeat split; auto.
Qed.
Lemma rd_skip_left : forall A B (p : parser I A) (q : parser I B) P Q (R : B -> list I -> list I -> Prop),
  reads p P -> reads q Q -> (forall a b s t r, P a s (t ++ r) -> Q b t r -> R b (s ++ t) r) -> reads (p_skip_left p q) R.
Proof.
  intros A B p q P Q R Hp Hq K pre l v n E. unfold p_skip_left in E. destruct (p (pre ++ l) (length pre)) as [a m|? ?| |] eqn:E1; try discriminate.
  destruct (Hp _ _ _ _ E1) as (s & r & -> & L & HP). destruct (q (pre ++ s ++ r) (length pre + m)) as [b k|? ?| |] eqn:E2; cbn in E; try discriminate. inv E.
  destruct (@rd_next _ _ _ _ _ _ _ _ _ Hq eq_refl E2) as (t & u & -> & Lt & HQ). exists (s ++ t), u. rewrite <- app_assoc, app_length. repeat split; eauto.
Qed.
Lemma rd_skip_right : forall A B (p : parser I A) (q : parser I B) P Q (R : A -> list I -> list I -> Prop),
  reads p P -> reads q Q -> (forall a b s t r, P a s (t ++ r) -> Q b t r -> R a (s ++ t) r) -> reads (p_skip_right p q) R.
Proof.
  intros A B p q P Q R Hp Hq K pre l v n E. unfold p_skip_right in E. destruct (p (pre ++ l) (length pre)) as [a m|? ?| |] eqn:E1; try discriminate.
  destruct (Hp _ _ _ _ E1) as (s & r & -> & L & HP). destruct (q (pre ++ s ++ r) (length pre + m)) as [b k|? ?| |] eqn:E2; cbn in E; try discriminate. inv E.
  destruct (@rd_next _ _ _ _ _ _ _ _ _ Hq eq_refl E2) as (t & u & -> & Lt & HQ). exists (s ++ t), u. rewrite <- app_assoc, app_length. repeat split; eauto.
Qed.
Lemma rd_surround : forall A B C (l : parser I A) (p : parser I B) (q : parser I C) L P R (Q : B -> list I -> list I -> Prop),
  reads l L -> reads p P -> reads q R ->
  (forall a b c s1 s2 s3 r, L a s1 (s2 ++ s3 ++ r) -> P b s2 (s3 ++ r) -> R c s3 r -> Q b (s1 ++ s2 ++ s3) r) -> reads (p_surround l p q) Q.
Proof.
  intros A B C l p q L P R Q Hl Hp Hq K. unfold p_surround.
  first
  [ eapply rd_skip_left with (Q := fun b t r => exists c s2 s3, t = s2 ++ s3 /\ P b s2 (s3 ++ r) /\ R c s3 r); [exact Hl| |];
    [eapply rd_skip_right; [exact Hp|exact Hq|]; intros b c s t r H1 H2; exists c, s, t; auto
    |intros a b s t r H1 (c & s2 & s3 & -> & H2 & H3); rewrite <- app_assoc in H1; eapply K; eassumption]
  | eapply rd_skip_right with (P := fun b t r => exists a s1 s2, t = s1 ++ s2 /\ L a s1 (s2 ++ r) /\ P b s2 r); [|exact Hq|];
    [eapply rd_skip_left; [exact Hl|exact Hp|]; intros a b s t r H1 H2; exists a, s, t; auto
    |intros b c s t r (a & s1 & s2 & -> & H2 & H3) H1; rewrite <- app_assoc; eapply K; eassumption] ].
Qed.
Lemma rd_opt : forall A (p : parser I A) P (R : option A -> list I -> list I -> Prop),
  reads p P -> (forall a s r, P a s r -> R (Some a) s r) -> (forall r, R None [] r) -> reads (p_opt p) R.
Proof.
  intros A p P R H H1 H2. unfold p_opt. apply rd_or.
  - eapply rd_map; [apply rd_attempt, H|exact H1].
  - intros pre l v n E. inv E. exists [], l. auto.
Qed.
Lemma rd_lazy : forall A (f : unit -> parser I A) Q, reads (f tt) Q -> reads (p_lazy f) Q.
Proof. intros A f Q H. exact H. Qed.

(** Repetition: the items one after the other, each with the text that follows it. *)
Inductive Reps {A} (Q : A -> list I -> list I -> Prop) : list A -> list I -> list I -> Prop :=
| rp_nil : forall r, Reps Q [] [] r
| rp_cons : forall v s vs t r, Q v s (t ++ r) -> Reps Q vs t r -> Reps Q (v :: vs) (s ++ t) r.
(** Separator, item, separator, item, ..., and perhaps a last separator. *)
Inductive Seps {A B} (Q : A -> list I -> list I -> Prop) (S : B -> list I -> list I -> Prop) : list A -> list I -> list I -> Prop :=
| sp_nil : forall r, Seps Q S [] [] r
| sp_last : forall w t r, S w t r -> Seps Q S [] t r
| sp_cons : forall w t v s vs u r, S w t (s ++ u ++ r) -> Q v s (u ++ r) -> Seps Q S vs u r -> Seps Q S (v :: vs) (t ++ s ++ u) r.
Lemma rd_steps : forall A (p : parser I A) Q, reads p Q -> forall inp pos vs k, steps p inp pos vs k -> forall pre l, inp = pre ++ l -> pos = length pre ->
  exists s r, l = s ++ r /\ length s = k /\ Reps Q vs s r.
Proof.
  intros A p Q H inp pos vs k Hs. induction Hs as [pos|pos v n vs m E Hs IH]; intros pre l -> ->.
  - exists [], l. repeat split. constructor.
  - destruct (H _ _ _ _ E) as (s & r & -> & L & HQ). destruct (IH (pre ++ s) r) as (t & u & -> & Lt & HR).
    + now rewrite app_assoc.
    + rewrite app_length. lia.
    + exists (s ++ t), u. rewrite <- app_assoc, app_length. repeat split; [lia|]. now constructor.
Qed.
Lemma rd_many0 : forall A (p : parser I A) Q (R : list A -> list I -> list I -> Prop),
  reads p Q -> (forall vs s r, Reps Q vs s r -> R vs s r) -> reads (p_many0 p) R.
Proof.
  intros A p Q R H K pre l vs n E. unfold p_many0 in E. apply many_none_success in E; [|now eapply rd_bounded; eauto|rewrite app_length; lia|exact Logic.I].
  destruct E as (E & _). destruct (@rd_steps _ _ _ H _ _ _ _ E pre l eq_refl eq_refl) as (s & r & -> & L & HR). exists s, r. auto.
Qed.
Lemma rd_many1 : forall A (p : parser I A) Q (R : list A -> list I -> list I -> Prop),
  reads p Q -> (forall vs s r, vs <> [] -> Reps Q vs s r -> R vs s r) -> reads (p_many1 p) R.
Proof.
  intros A p Q R H K pre l vs n E. unfold p_many1 in E. apply many_none_success in E; [|now eapply rd_bounded; eauto|rewrite app_length; lia|exact Logic.I].
  destruct E as (E & Hm & _). destruct (@rd_steps _ _ _ H _ _ _ _ E pre l eq_refl eq_refl) as (s & r & -> & L & HR). exists s, r. repeat split; auto.
  apply K; [|exact HR]. cbn in Hm. destruct vs; [cbn in Hm; lia|discriminate].
Qed.
Lemma rd_repeat_sep : forall A B (p : parser I A) (sep : parser I B) rg Q S (R : list A -> list I -> list I -> Prop),
  reads p Q -> reads sep S -> (min_ok (rg_start rg) 0 -> forall r, R [] [] r) ->
  (forall v s vs t r, Q v s (t ++ r) -> Seps Q S vs t r -> min_ok (rg_start rg) (length (v :: vs)) -> R (v :: vs) (s ++ t) r) ->
  reads (p_repeat_sep p rg (Some sep)) R.
Proof.
  intros A B p sep rg Q S R Hp Hs R0 R1 pre l vs n E.
  assert (Tl : forall inp cur count vs k, tail p sep (rg_end rg) inp cur count vs k -> forall pre l, inp = pre ++ l -> cur = length pre ->
    exists s r, l = s ++ r /\ length s = k /\ Seps Q S vs s r).
  { clear - Hp Hs. intros inp cur count vs k H. induction H as [cur count M|cur count M F|cur count w m M Es F|cur count w m v n vs k M Es Ep H IH]; intros pre l -> ->.
    - exists [], l. repeat split. constructor.
    - exists [], l. repeat split. constructor.
    - destruct (Hs _ _ _ _ Es) as (s & r & -> & L & HS). exists s, r. repeat split; [exact L|]. eapply sp_last; exact HS.
    - destruct (Hs _ _ _ _ Es) as (t & r & -> & L & HS). destruct (@rd_next _ _ _ _ _ _ _ _ _ Hp L Ep) as (s & u & -> & Ls & HQ).
      destruct (IH (pre ++ t ++ s) u) as (x & y & -> & Lx & HT); [now rewrite <- !app_assoc|rewrite !app_length; lia|].
      exists (t ++ s ++ x), y. rewrite <- !app_assoc, !app_length. repeat split; [lia|]. econstructor; eauto. }
  apply repeat_sep_success in E; [|eapply rd_bounded; eauto|eapply rd_bounded; eauto|rewrite app_length; lia]. destruct E as [E Hm].
  destruct E as [F|v n vs k Ev Ht].
  - exists [], l. repeat split. now apply R0.
  - destruct (Hp _ _ _ _ Ev) as (s & r & -> & L & HQ). destruct (Tl _ _ _ _ _ Ht (pre ++ s) r) as (t & u & -> & Lt & HT); [now rewrite app_assoc|rewrite app_length; lia|].
    exists (s ++ t), u. rewrite <- app_assoc, app_length. repeat split; [lia|]. now apply R1.
Qed.
Lemma rd_many0_sep : forall A B (p : parser I A) (sep : parser I B) Q S (R : list A -> list I -> list I -> Prop),
  reads p Q -> reads sep S -> (forall r, R [] [] r) -> (forall v s vs t r, Q v s (t ++ r) -> Seps Q S vs t r -> R (v :: vs) (s ++ t) r) ->
  reads (p_many0_sep p sep) R.
Proof. intros A B p sep Q S R H1 H2 H3 H4. eapply rd_repeat_sep; eauto. Qed.
Lemma rd_many1_sep : forall A B (p : parser I A) (sep : parser I B) Q S (R : list A -> list I -> list I -> Prop),
  reads p Q -> reads sep S -> (forall v s vs t r, Q v s (t ++ r) -> Seps Q S vs t r -> R (v :: vs) (s ++ t) r) ->
  reads (p_many1_sep p sep) R.
Proof. intros A B p sep Q S R H1 H2 H3. eapply rd_repeat_sep; eauto. cbn. lia. Qed.
Lemma rd_end : reads (@p_end I) (fun _ s r => s = [] /\ r = []).
Proof.
  intros pre l v n E. unfold p_end in E. destruct (ps_input (pre ++ l) (length pre)) as [input|] eqn:Ei; [|discriminate].
  assert (input = l) by (rewrite input_at in Ei; congruence). subst. destruct l; inv E. now exists [], [].
Qed.
End Rules.
