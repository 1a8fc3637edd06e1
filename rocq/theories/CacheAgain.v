(** One parser object with caches (cache_parsers_impl.rs 13-37) run again and again on one text.  A cached object that is run at 0 in a parse of the text is not run
    at 1 in any, or the other way round: what its map has for the shared key of the two offsets is right. *)
From Verif Require Import Base Core Comb CacheSim.
From Coq Require Import Lia.
Set Implicit Arguments.
Local Open Scope string_scope.
Local Open Scope nat_scope.
Local Open Scope list_scope.

Section Again.
Variable a : nat -> nat.
Variable inp : list N.
Notation step := (step a inp).
Notation Free := (Free a inp).
(** Run at [d] and at 2 and later only, [g] always does what [p] does. *)
Definition Again (nz : bool) {A} (g : sobj A) (p : parser N A) : Prop :=
  forall d, d <= 1 -> (nz = true -> 1 <= d) -> exists W : st g -> Prop, W (st0 g) /\ forall off, off = d \/ 2 <= off -> step g p off W W.

Lemma free_again : forall nz A (g : sobj A) p, Free g p -> Again nz g p.
Proof. intros nz A g p H d _ _. exists (fun _ => True). split; [exact Logic.I|]. intros off _. apply H. Qed.
Lemma again_nz : forall A (g : sobj A) p, Again false g p -> Again true g p.
Proof. intros A g p H d Hd _. apply H; [exact Hd|discriminate]. Qed.
Lemma again_ext : forall nz A (g : sobj A) p q, (forall off, p inp off = q inp off) -> Again nz g p -> Again nz g q.
Proof. intros nz A g p q E H d Hd Hn. destruct (H d Hd Hn) as (W & H0 & H1). exists W. split; [exact H0|]. intros off Ho t s Hs. rewrite <- E. now apply H1. Qed.
(** New objects. *)
Lemma again_new : forall A (g : sobj A) p, Again false g p -> Free (s_lazy g) p.
Proof.
  intros A g p H off t s _. assert (E : exists d, d <= 1 /\ (off = d \/ 2 <= off)) by (destruct off as [|[|off]]; [exists 0|exists 1|exists 0]; lia). destruct E as (d & Hd & Ho).
  destruct (H d Hd ltac:(discriminate)) as (W & H0 & H1). destruct (H1 off Ho t (st0 g) H0) as (t1 & s1 & E & _). cbn [s_lazy srun]. rewrite E. eauto.
Qed.
Lemma again_lift : forall nz A B (f : outcome N A -> list N -> nat -> outcome N B) g p, Again nz g p -> Again nz (s_lift f g) (fun inp off => f (p inp off) inp off).
Proof. intros nz A B f g p H d Hd Hn. destruct (H d Hd Hn) as (W & H0 & H1). exists W. split; [exact H0|]. intros off Ho. now apply step_lift, H1. Qed.
Lemma again_seq : forall nz nz' A B C (k : A -> B -> C) g h p q, Again nz g p -> Again nz' h q -> (nz' = true -> nz = true \/ consumes 1 p) -> Again nz (s_seq k g h) (q_seq k p q).
Proof.
  intros nz nz' A B C k g h p q H H' Hz d Hd Hn. destruct (H d Hd Hn) as (W & H0 & H1).
  assert (E : exists e, e <= 1 /\ (nz' = true -> 1 <= e) /\ forall n x, p inp d = Success x n -> d + n = e \/ 2 <= d + n).
  { destruct (p inp d) as [x n|e c| |] eqn:Ep; try (exists 1; repeat split; intros; [lia|lia|discriminate]). destruct (Nat.le_gt_cases 2 (d + n)) as [L|L].
    - exists 1. repeat split; try lia. intros n' x' E. injection E as _ <-. now right.
    - exists (d + n). repeat split; try lia; [|intros n' x' E; injection E as _ <-; now left]. intros Hz'. destruct (Hz Hz') as [Hz1|Hz1]; [specialize (Hn Hz1)|specialize (Hz1 _ _ _ _ Ep)]; lia. }
  destruct E as (e & He & Hne & Ee). destruct (H' e He Hne) as (W' & G0 & G1). exists (fun s => W (fst s) /\ W' (snd s)). split; [now split|]. intros off Ho.
  apply step_seq; auto. intros n x E. apply G1. destruct Ho as [->|Ho]; [now apply (Ee n x)|lia].
Qed.
Lemma again_or : forall nz A (g h : sobj A) p q, Again nz g p -> Again nz h q -> Again nz (s_or g h) (p_or p q).
Proof.
  intros nz A g h p q H H' d Hd Hn. destruct (H d Hd Hn) as (W & H0 & H1). destruct (H' d Hd Hn) as (W' & G0 & G1). exists (fun s => W (fst s) /\ W' (snd s)). split; [now split|].
  intros off Ho. apply step_or; auto.
Qed.
Lemma again_rep : forall nz A (g : sobj A) r p, Again nz g p -> (nz = true /\ consumes 1 p \/ consumes 2 p) -> Again nz (s_rep g r) (p_repeat_sep p r (None : option (parser N unit))).
Proof.
  intros nz A g r p H Hc d Hd Hn. destruct (H d Hd Hn) as (W & H0 & H1). exists W. split; [exact H0|]. intros off Ho t. cbn [st s_rep]. intros s Hs.
  destruct (H1 off Ho t s Hs) as (t1 & s1 & E & K). cbn [s_rep srun]. unfold p_repeat_sep, repeat_sep_fuel. rewrite E. destruct (p inp off) as [v n|e c| |] eqn:Ep; [|eauto..].
  assert (2 <= off + n) by (destruct Ho as [->|Ho]; [|lia]; destruct Hc as [[Hz Hc]|Hc]; [specialize (Hn Hz)|]; apply Hc in Ep; lia).
  destruct (@step_loop a inp _ g p 2 W (fun o Lo => H1 o (or_intror Lo)) (rep_fuel (rg_end r) inp off) (rg_end r) (off + n) [v] n t1 s1 ltac:(assumption) K) as (t2 & s2 & E2 & K2). rewrite E2. eauto.
Qed.
(** The separator is run at 1 and later, the items at 2 and later. *)
Lemma near_sep : forall A B (g : sobj A) (h : sobj B) p q (P1 : st g -> Prop) (P2 : st h -> Prop),
  (forall off, 2 <= off -> step g p off P1 P1) -> (forall off, 1 <= off -> step h q off P2 P2) ->
  forall fuel rend cur items all t s1 s2, 1 <= cur -> (cur = 1 -> consumes 1 q) -> P1 s1 -> P2 s2 ->
    exists t' s1' s2', s_loop_sep fuel g h rend a inp cur items all t s1 s2 = (rep_loop fuel p (Some q) rend inp cur items all, (t', (s1', s2'))) /\ P1 s1' /\ P2 s2'.
Proof.
  intros A B g h p q P1 P2 H1 H2. induction fuel as [|fuel IH]; intros rend cur items all t s1 s2 Hc Hq K1 K2; cbn [s_loop_sep rep_loop]; [eauto 6|].
  destruct (rep_stop rend (length items)); [eauto 6|]. destruct (H2 cur Hc t s2 K2) as (t1 & s2' & E & J). rewrite E.
  destruct (q inp cur) as [v n|e c| |] eqn:Eq; eauto 6. assert (L : 2 <= cur + n) by (destruct (Nat.eq_dec cur 1) as [E1|]; [apply (Hq E1) in Eq|]; lia).
  destruct (H1 (cur + n) L t1 s1 K1) as (t2 & s1' & E2 & J2). rewrite E2. destruct (p inp (cur + n)) as [w m|e c| |]; eauto 6. apply IH; [lia|lia|exact J2|exact J].
Qed.
Lemma again_rep_sep : forall nz A B (g : sobj A) r (h : sobj B) p q, Again nz g p -> Again true h q -> consumes 1 p -> (nz = true \/ consumes 1 q) ->
  Again nz (s_rep_sep g r h) (p_repeat_sep p r (Some q)).
Proof.
  intros nz A B g r h p q H H' C1 C2 d Hd Hn. destruct (H d Hd Hn) as (W & H0 & H1). destruct (H' 1 (le_n 1) (fun _ => le_n 1)) as (W' & G0 & G1).
  exists (fun s => W (fst s) /\ W' (snd s)). split; [now split|]. intros off Ho t [s s2] [Hs Hs2]. cbn [fst snd] in Hs, Hs2. destruct (H1 off Ho t s Hs) as (t1 & s1 & E & K). cbn [s_rep_sep srun].
  unfold p_repeat_sep, repeat_sep_fuel. rewrite E. destruct (p inp off) as [v n|e c| |] eqn:Ep; [|eexists; eexists; split; [reflexivity|split; assumption]..].
  pose proof (C1 _ _ _ _ Ep) as L. assert (G2 : forall o, 1 <= o -> step h q o W' W') by (intros o Lo; apply G1; lia).
  assert (Q : off + n = 1 -> consumes 1 q) by (intros E1; destruct C2 as [C2|C2]; [specialize (Hn C2); lia|exact C2]).
  destruct (@near_sep _ _ g h p q W W' (fun o Lo => H1 o (or_intror Lo)) G2 (rep_fuel (rg_end r) inp off) (rg_end r) (off + n) [v] n t1 s1 s2 ltac:(lia) Q K Hs2) as (t2 & u1 & u2 & E2 & K2 & K3).
  rewrite E2. eexists; eexists; split; [reflexivity|split; assumption].
Qed.
Lemma near_rest : forall A (g : sobj A) h p op (P1 : st g -> Prop) (P2 : st h -> Prop),
  (forall off, 2 <= off -> step g p off P1 P1) -> (forall off, 1 <= off -> step h op off P2 P2) -> consumes 1 op ->
  forall fuel x off t s1 s2, 1 <= off -> P1 s1 -> P2 s2 ->
    exists t' s1' s2', s_rest fuel g h x a inp off t s1 s2 = (rest_left1_fuel fuel p op x inp off, (t', (s1', s2'))) /\ P1 s1' /\ P2 s2'.
Proof.
  intros A g h p op P1 P2 H1 H2 C. induction fuel as [|fuel IH]; intros x off t s1 s2 Hc K1 K2; cbn [s_rest rest_left1_fuel]; [eauto 6|].
  destruct (H2 off Hc t s2 K2) as (t1 & s2' & E & J). rewrite E. unfold p_or.
  destruct (op inp off) as [f n|e c| |] eqn:Eo; [|do 3 eexists; split; [reflexivity|split; assumption]..]. apply C in Eo. destruct (H1 (off + n) ltac:(lia) t1 s1 K1) as (t2 & s1' & E2 & J2). rewrite E2.
  destruct (p inp (off + n)) as [y m|e c| |]; [|do 3 eexists; split; [reflexivity|split; assumption]..].
  destruct (IH (f x y) (off + n + m) t2 s1' s2' ltac:(lia) J2 J) as (t3 & u1 & u2 & E3 & L1 & L2). rewrite E3.
  do 3 eexists; split; [reflexivity|split; assumption].
Qed.
Lemma again_chain : forall nz A (g : sobj A) h p op, Again nz g p -> Again true h op -> consumes 1 p -> consumes 1 op -> Again nz (s_chain_left1 g h) (p_chain_left1 p op).
Proof.
  intros nz A g h p op H H' C1 C2 d Hd Hn. destruct (H d Hd Hn) as (W & H0 & H1). destruct (H' 1 (le_n 1) (fun _ => le_n 1)) as (W' & G0 & G1).
  exists (fun s => W (fst s) /\ W' (snd s)). split; [now split|]. intros off Ho t [s s2] [Hs Hs2]. cbn [fst snd] in Hs, Hs2. destruct (H1 off Ho t s Hs) as (t1 & s1 & E & K). cbn [s_chain_left1 srun].
  unfold p_chain_left1, p_flat_map, p_rest_left1. rewrite E. destruct (p inp off) as [v n|e c| |] eqn:Ep; [|eexists; eexists; split; [reflexivity|split; assumption]..].
  pose proof (C1 _ _ _ _ Ep) as L. assert (G2 : forall o, 1 <= o -> step h op o W' W') by (intros o Lo; apply G1; lia).
  destruct (@near_rest _ g h p op W W' (fun o Lo => H1 o (or_intror Lo)) G2 C2 (chain_fuel inp (off + n)) v (off + n) t1 s1 s2 ltac:(lia) K Hs2) as (t2 & u1 & u2 & E2 & K2 & K3). rewrite E2.
  eexists; eexists; split; [reflexivity|split; assumption].
Qed.
Lemma again_cache : forall nz A (g : sobj A) p, Again nz g p -> Again nz (s_cache g) p.
Proof.
  intros nz A g p H d Hd Hn. destruct (H d Hd Hn) as (W & H0 & H1).
  exists (fun s => (forall k l o, In (k, l, o) (fst s) -> 1 <= l /\ o = p inp (S l) \/ l = 0 /\ o = p inp d) /\ W (snd s)).
  split; [split; [intros k l o []|exact H0]|]. intros off Ho t [m s] [K J]. cbn [fst snd] in K, J. cbn [s_cache srun].
  assert (R : forall o, 1 <= last_offset_or0 off /\ o = p inp (S (last_offset_or0 off)) \/ last_offset_or0 off = 0 /\ o = p inp d -> o = p inp off).
  { intros o Hr. unfold last_offset_or0 in Hr. destruct Ho as [->|Ho].
    - destruct Hr as [[Hr _]|[_ Hr]]; [destruct (Nat.ltb_spec 0 d); lia|exact Hr].
    - destruct (Nat.ltb_spec 0 off); [|lia]. destruct Hr as [[_ ->]|[Hr _]]; [f_equal; lia|lia]. }
  destruct (m_find m (a t) (last_offset_or0 off)) as [o|] eqn:Ef.
  - apply m_find_in in Ef. pose proof (R _ (K _ _ _ Ef)) as ->. eexists; eexists; split; [reflexivity|]. now split.
  - destruct (H1 off Ho (S t) s J) as (t' & s' & E & K2). rewrite E. eexists; eexists; split; [reflexivity|]. split; [|exact K2].
    cbn [fst]. intros k l o [Hi|Hi]; [|now apply K in Hi]. injection Hi as _ <- <-. unfold last_offset_or0. destruct Ho as [->|Ho].
    + right. split; [destruct (Nat.ltb_spec 0 d); lia|reflexivity].
    + left. destruct (Nat.ltb_spec 0 off); [|lia]. split; [lia|f_equal; lia].
Qed.
End Again.

(** ** The rules for each combinator *)
Section Rules.
Variable a : nat -> nat.
Variable inp : list N.
Notation Again := (Again a inp).
Lemma again_prim : forall nz A (p : parser N A), Again nz (s_prim p) p.
Proof. intros nz A p. apply free_again, free_prim. Qed.
Lemma again_lazy : forall nz A (g : sobj A) p, Again false g p -> Again nz (s_lazy g) (p_lazy (fun _ => p)).
Proof. intros nz A g p H. apply free_again. exact (again_new H). Qed.
Lemma again_map : forall nz A B (g : sobj A) p (f : A -> B), Again nz g p -> Again nz (s_map g f) (p_map p f).
Proof. intros nz A B g p f H. exact (again_lift (fun o _ _ => p_map (fun _ _ => o) f [] 0) H). Qed.
Lemma again_attempt : forall nz A (g : sobj A) p, Again nz g p -> Again nz (s_attempt g) (p_attempt p).
Proof. intros nz A g p H. exact (again_lift (fun o _ _ => with_uncommitted o) H). Qed.
Lemma again_name : forall nz A (g : sobj A) p n, Again nz g p -> Again nz (s_name g n) (p_name p n).
Proof. intros nz A g p n H. exact (again_lift (fun o inp off => p_name (fun _ _ => o) n inp off) H). Qed.
Lemma again_and : forall nz A B (g : sobj A) (h : sobj B) p q, Again nz g p -> Again nz h q -> Again nz (s_and g h) (p_and p q).
Proof. intros nz A B g h p q H1 H2. exact (again_seq pair H1 H2 (fun e => or_introl e)). Qed.
Lemma again_skip_left : forall nz A B (g : sobj A) (h : sobj B) p q, Again nz g p -> Again nz h q -> Again nz (s_skip_left g h) (p_skip_left p q).
Proof. intros nz A B g h p q H1 H2. exact (again_seq (fun _ y => y) H1 H2 (fun e => or_introl e)). Qed.
Lemma again_skip_right : forall nz A B (g : sobj A) (h : sobj B) p q, Again nz g p -> Again nz h q -> Again nz (s_skip_right g h) (p_skip_right p q).
Proof. intros nz A B g h p q H1 H2. exact (again_seq (fun x _ => x) H1 H2 (fun e => or_introl e)). Qed.
Lemma again_surround : forall nz A B C (g : sobj A) (h : sobj B) (k : sobj C) p q r, Again nz g p -> Again nz h q -> Again nz k r ->
  Again nz (s_surround g h k) (p_surround p q r).
Proof. intros nz A B C g h k p q r H1 H2 H3. apply again_skip_left; [exact H1|now apply again_skip_right]. Qed.
Lemma again_skip_left1 : forall A B (g : sobj A) (h : sobj B) p q, Again false g p -> consumes 1 p -> Again true h q -> Again false (s_skip_left g h) (p_skip_left p q).
Proof. intros A B g h p q H1 C H2. exact (again_seq (fun _ y => y) H1 H2 (fun _ => or_intror C)). Qed.
Lemma again_opt : forall nz A (g : sobj A) p, Again nz g p -> Again nz (s_opt g) (p_opt p).
Proof. intros nz A g p H. apply again_or; [now apply again_map, again_attempt|apply again_prim]. Qed.
End Rules.
