(** The clock of cached objects (CacheSim.v) against the calls of the same parsers without caches (Measure.v): an object with caches gives the same
    outcome and calls no more. *)
From Verif Require Import Base Core Comb Closure Measure MeasureUri MeasureToys CacheSim.
From Coq Require Import Lia.
Set Implicit Arguments.
Local Open Scope string_scope.
Local Open Scope nat_scope.
Local Open Scope list_scope.

(** The parser a measured one counts for. *)
Definition bare {A} (m : mparser A) : parser N A := fun inp off => fst (m inp off).
Lemma bare_takes : forall A k (m : mparser A) p, erases m p -> consumes k p -> consumes k (bare m).
Proof. intros A k m p E H inp off v n Ev. unfold bare in Ev. rewrite (E inp off) in Ev. exact (H _ _ _ _ Ev). Qed.
Lemma id_fst : forall A (m : mparser A) inp off, fst (m_id m inp off) = fst (m inp off).
Proof. intros A m inp off. unfold m_id, m_map, m_one, p_map. destruct (m inp off) as [[x n|e c| |] k]; reflexivity. Qed.
Lemma id_cnt : forall A (m : mparser A) inp off, cnt (snd (m_id m inp off)) = S (cnt (snd (m inp off))).
Proof. intros A m inp off. unfold m_id, m_map, m_one. destruct (m inp off) as [o k]. reflexivity. Qed.

Section Timed.
Variable a : nat -> nat.
Variable inp : list N.
Definition tstep {A} (g : sobj A) (m : mparser A) (off : nat) (P Q : st g -> Prop) : Prop :=
  forall t s, P s -> exists t' s', srun g a inp off (t, s) = (fst (m inp off), (t', s')) /\ t' <= t + cnt (snd (m inp off)) /\ Q s'.
(** As [Faith] and [Free] of CacheSim.v. *)
Definition Timed (nz : bool) {A} (g : sobj A) (m : mparser A) : Prop :=
  exists F V : st g -> Prop, F (st0 g) /\ (forall s, F s -> V s) /\ (forall off, (nz = true -> 1 <= off) -> tstep g m off F V) /\
    (forall off, 2 <= off -> tstep g m off F F) /\ (forall off, 2 <= off -> tstep g m off V V).
Definition TFree {A} (g : sobj A) (m : mparser A) : Prop := forall off, tstep g m off (fun _ => True) (fun _ => True).

Lemma tfree_timed : forall nz A (g : sobj A) m, TFree g m -> Timed nz g m.
Proof. intros nz A g m H. exists (fun _ => True), (fun _ => True). repeat split; intros; apply H. Qed.
Lemma timed_run : forall A (g : sobj A) m, Timed false g m -> fst (snd (srun g a inp 0 (0, st0 g))) <= cnt (snd (m inp 0)).
Proof.
  intros A g m (F & V & H0 & _ & H2 & _). destruct (H2 0 ltac:(discriminate) 0 (st0 g) H0) as (t & s & E & C & _). rewrite E. exact C.
Qed.
Lemma timed_ext : forall nz A (g : sobj A) m m', (forall off, m inp off = m' inp off) -> Timed nz g m -> Timed nz g m'.
Proof.
  intros nz A g m m' E (F & V & H0 & H1 & H2 & H3 & H4). exists F, V. unfold tstep in *. split; [exact H0|]. split; [exact H1|].
  split; [|split]; intros off L t s Hs; rewrite <- E; [now apply H2|now apply H3|now apply H4].
Qed.

(** *** Steps *)
Lemma ts_weaken : forall A (g : sobj A) m off (P P' Q Q' : st g -> Prop), tstep g m off P Q -> (forall s, P' s -> P s) -> (forall s, Q s -> Q' s) -> tstep g m off P' Q'.
Proof. intros A g m off P P' Q Q' H H1 H2 t s Hs. destruct (H t s (H1 s Hs)) as (t' & s' & E & C & K). exists t', s'. split; [exact E|]. split; [exact C|now apply H2]. Qed.
Lemma ts_prim : forall A (p : parser N A) m off, erases m p -> tstep (s_prim p) m off (fun _ => True) (fun _ => True).
Proof. intros A p m off H t s _. exists t, s. rewrite (H inp off). split; [reflexivity|]. split; [lia|exact Logic.I]. Qed.
Lemma ts_id : forall A (g : sobj A) m off P Q, tstep g m off P Q -> tstep g (m_id m) off P Q.
Proof. intros A g m off P Q H t s Hs. destruct (H t s Hs) as (t' & s' & E & C & K). exists t', s'. rewrite id_fst, id_cnt. split; [exact E|]. split; [lia|exact K]. Qed.
Lemma ts_one : forall A B (f : outcome N A -> list N -> nat -> outcome N B) (k : parser N A -> parser N B) (g : sobj A) m off (P Q : st g -> Prop),
  (forall o inp off, f o inp off = k (fun _ _ => o) inp off) -> tstep g m off P Q -> tstep (s_lift f g) (m_one k m) off P Q.
Proof.
  intros A B f k g m off P Q K H t. cbn [st s_lift]. intros s Hs. destruct (H t s Hs) as (t' & s' & E & C & J). exists t', s'. cbn [s_lift srun]. rewrite E. unfold m_one.
  destruct (m inp off) as [o c]. cbn [fst snd up cnt] in *. rewrite K. split; [reflexivity|]. split; [lia|exact J].
Qed.
Definition joins {A B C} (f : A -> B -> C) (k : parser N A -> parser N B -> parser N C) : Prop := forall p q inp off, k p q inp off = q_seq f p q inp off.
Ltac fin := do 2 eexists; split; [reflexivity|]; split; [cbn [fst snd up both cnt m_leaf] in *; lia|cbn [fst snd]; auto].
Lemma ts_two : forall A B C (f : A -> B -> C) k (g : sobj A) (h : sobj B) m m' off P1 P2 Q1 Q2, joins f k ->
  tstep g m off P1 Q1 -> (forall n x, bare m inp off = Success x n -> tstep h m' (off + n) P2 Q2) -> (forall s, P2 s -> Q2 s) ->
  tstep (s_seq f g h) (m_two k m m') off (fun s => P1 (fst s) /\ P2 (snd s)) (fun s => Q1 (fst s) /\ Q2 (snd s)).
Proof.
  intros A B C f k g h m m' off P1 P2 Q1 Q2 J H1 H2 H3 t [s1 s2] [K1 K2]. cbn [fst snd] in K1, K2. destruct (H1 t s1 K1) as (t1 & s1' & E & C1 & J1).
  cbn [s_seq srun]. rewrite E. unfold m_two. unfold bare in H2. destruct (m inp off) as [o c]. cbn [fst snd] in *. destruct o as [x n|e b| |].
  - destruct (H2 n x eq_refl t1 s2 K2) as (t2 & s2' & E2 & C2 & J2). rewrite E2. destruct (m' inp (off + n)) as [o2 c2]. cbn [fst snd] in *. rewrite J. unfold q_seq. destruct o2; fin.
  - rewrite J. unfold q_seq. fin.
  - rewrite J. unfold q_seq. fin.
  - rewrite J. unfold q_seq. fin.
Qed.
Lemma ts_or : forall A (g h : sobj A) m m' off P1 P2 Q1 Q2, tstep g m off P1 Q1 -> tstep h m' off P2 Q2 -> (forall s, P2 s -> Q2 s) ->
  tstep (s_or g h) (m_or m m') off (fun s => P1 (fst s) /\ P2 (snd s)) (fun s => Q1 (fst s) /\ Q2 (snd s)).
Proof.
  intros A g h m m' off P1 P2 Q1 Q2 H1 H2 H3 t [s1 s2] [K1 K2]. cbn [fst snd] in K1, K2. destruct (H1 t s1 K1) as (t1 & s1' & E & C1 & J1).
  cbn [s_or srun]. rewrite E. unfold m_or. destruct (m inp off) as [o c]. cbn [fst snd] in *. destruct o as [x n|e [|]| |]; cbn [negb]; try fin.
  destruct (H2 t1 s2 K2) as (t2 & s2' & E2 & C2 & J2). rewrite E2. destruct (m' inp off) as [o2 c2]. cbn [fst snd] in *. fin.
Qed.
Lemma ts_loop : forall A (g : sobj A) m lo (P : st g -> Prop), (forall off, lo <= off -> tstep g m off P P) ->
  forall fuel rend cur items all t s c, lo <= cur -> P s ->
    exists t' s', s_loop fuel g rend a inp cur items all t s = (fst (m_loop fuel m (None : option (mparser unit)) rend inp cur items all c), (t', s'))
      /\ t' + cnt c <= t + cnt (snd (m_loop fuel m (None : option (mparser unit)) rend inp cur items all c)) /\ P s'.
Proof.
  intros A g m lo P H. induction fuel as [|fuel IH]; intros rend cur items all t s c Hc Hs; cbn [s_loop m_loop]; [fin|].
  destruct (rep_stop rend (length items)); [fin|]. destruct (H cur Hc t s Hs) as (t1 & s1 & E & C & K). rewrite E. destruct (m inp cur) as [o c1]. cbn [fst snd] in *.
  destruct o as [v n|e b| |]; try fin. destruct (IH rend (cur + n) (v :: items) (all + n) t1 s1 (both c c1) ltac:(lia) K) as (t2 & s2 & E2 & C2 & K2). rewrite E2. cbn [both cnt] in C2. fin.
Qed.
Lemma ts_loop_sep : forall A B (g : sobj A) (h : sobj B) m m' lo (P1 : st g -> Prop) (P2 : st h -> Prop),
  (forall off, lo <= off -> tstep g m off P1 P1) -> (forall off, lo <= off -> tstep h m' off P2 P2) ->
  forall fuel rend cur items all t s1 s2 c, lo <= cur -> P1 s1 -> P2 s2 ->
    exists t' s', s_loop_sep fuel g h rend a inp cur items all t s1 s2 = (fst (m_loop fuel m (Some m') rend inp cur items all c), (t', s'))
      /\ t' + cnt c <= t + cnt (snd (m_loop fuel m (Some m') rend inp cur items all c)) /\ P1 (fst s') /\ P2 (snd s').
Proof.
  intros A B g h m m' lo P1 P2 H1 H2. induction fuel as [|fuel IH]; intros rend cur items all t s1 s2 c Hc K1 K2; cbn [s_loop_sep m_loop]; [fin|].
  destruct (rep_stop rend (length items)); [fin|]. destruct (H2 cur Hc t s2 K2) as (t1 & s2' & E & C & J). rewrite E. destruct (m' inp cur) as [o c1]. cbn [fst snd] in *.
  destruct o as [v n|e b| |]; try fin. destruct (H1 (cur + n) ltac:(lia) t1 s1 K1) as (t2 & s1' & E2 & C2 & J2). rewrite E2. destruct (m inp (cur + n)) as [o2 c2]. cbn [fst snd] in *.
  destruct o2 as [w k|e b| |]; try fin.
  destruct (IH rend (cur + n + k) (w :: items) (all + n + k) t2 s1' s2' (both (both c c1) c2) ltac:(lia) J2 J) as (t3 & s3 & E3 & C3 & K3). rewrite E3. cbn [both cnt] in C3. fin.
Qed.
Arguments ts_loop : clear implicits.
Arguments ts_loop_sep : clear implicits.
Lemma ts_rest : forall A (g : sobj A) h m op lo (P1 : st g -> Prop) (P2 : st h -> Prop),
  (forall off, lo <= off -> tstep g m off P1 P1) -> (forall off, lo <= off -> tstep h op off P2 P2) ->
  forall fuel x off t s1 s2, lo <= off -> P1 s1 -> P2 s2 ->
    exists t' s', s_rest fuel g h x a inp off t s1 s2 = (fst (m_rest fuel m op x inp off), (t', s'))
      /\ t' <= t + cnt (snd (m_rest fuel m op x inp off)) /\ P1 (fst s') /\ P2 (snd s').
Proof.
  intros A g h m op lo P1 P2 H1 H2. induction fuel as [|fuel IH]; intros x off t s1 s2 Hc K1 K2; cbn [s_rest m_rest]; [fin|].
  destruct (H2 off Hc t s2 K2) as (t1 & s2' & E & C & J). rewrite E. unfold m_or. destruct (op inp off) as [o c]. cbn [fst snd] in *.
  destruct o as [f n|e b| |].
  - destruct (H1 (off + n) ltac:(lia) t1 s1 K1) as (t2 & s1' & E2 & C2 & J2). rewrite E2. destruct (m inp (off + n)) as [o2 c2]. cbn [fst snd] in *. destruct o2 as [y k|e b| |].
    + destruct (IH (f x y) (off + n + k) t2 s1' s2' ltac:(lia) J2 J) as (t3 & s3 & E3 & C3 & K3). rewrite E3. destruct (m_rest fuel m op (f x y) inp (off + n + k)) as [r c3]. cbn [fst snd] in *. unfold p_or.
      destruct (advance_success n (add_commit (negb (n =? 0)) (advance_success k r))) as [z i|z [|]| |]; cbn [negb]; fin.
    + unfold p_or. destruct (advance_success n (add_commit (negb (n =? 0)) (Failure e b))) as [z i|z [|]| |]; cbn [negb]; fin.
    + fin.
    + fin.
  - unfold p_or. destruct b; cbn [negb]; fin.
  - fin.
  - fin.
Qed.
Arguments ts_rest : clear implicits.

(** *** Rules *)
Lemma tf_prim : forall A (p : parser N A) m, erases m p -> TFree (s_prim p) m.
Proof. intros A p m H off. now apply ts_prim. Qed.
Lemma tf_id : forall A (g : sobj A) m, TFree g m -> TFree g (m_id m).
Proof. intros A g m H off. apply ts_id, H. Qed.
Lemma tf_one : forall A B (f : outcome N A -> list N -> nat -> outcome N B) k g m, (forall o inp off, f o inp off = k (fun _ _ => o) inp off) -> TFree g m -> TFree (s_lift f g) (m_one k m).
Proof. intros A B f k g m K H off. apply ts_one; [exact K|apply H]. Qed.
Lemma tf_two : forall A B C (f : A -> B -> C) k g h m m', joins f k -> TFree g m -> TFree h m' -> TFree (s_seq f g h) (m_two k m m').
Proof. intros A B C f k g h m m' J H1 H2 off. eapply ts_weaken; [eapply ts_two; [exact J|apply H1|intros n x _; apply H2|auto]| |]; cbn; auto. Qed.
Lemma tf_or : forall A (g h : sobj A) m m', TFree g m -> TFree h m' -> TFree (s_or g h) (m_or m m').
Proof. intros A g h m m' H1 H2 off. eapply ts_weaken; [eapply ts_or; [apply H1|apply H2|auto]| |]; cbn; auto. Qed.
Lemma tf_rep : forall A (g : sobj A) r m, TFree g m -> TFree (s_rep g r) (m_rep m r (None : option (mparser unit))).
Proof.
  intros A g r m H off t. cbn [st s_rep]. intros s _. destruct (H off t s Logic.I) as (t1 & s1 & E & C & _). cbn [s_rep srun]. unfold m_rep. rewrite E.
  destruct (m inp off) as [o c]. cbn [fst snd] in *. destruct o as [v n|e b| |]; try fin.
  destruct (ts_loop _ _ _ 0 _ (fun off _ => H off) (rep_fuel (rg_end r) inp off) (rg_end r) (off + n) [v] n t1 s1 c (Nat.le_0_l _) Logic.I) as (t2 & s2 & E2 & C2 & _). rewrite E2.
  destruct (m_loop _ m _ _ inp (off + n) [v] n c) as [d c2]. cbn [fst snd] in *. fin.
Qed.
Lemma tf_rep_sep : forall A B (g : sobj A) r (h : sobj B) m m', TFree g m -> TFree h m' -> TFree (s_rep_sep g r h) (m_rep m r (Some m')).
Proof.
  intros A B g r h m m' H H' off t [s s2] _. destruct (H off t s Logic.I) as (t1 & s1 & E & C & _). cbn [s_rep_sep srun]. unfold m_rep. rewrite E.
  destruct (m inp off) as [o c]. cbn [fst snd] in *. destruct o as [v n|e b| |]; try fin.
  destruct (ts_loop_sep _ _ _ _ _ _ 0 _ _ (fun off _ => H off) (fun off _ => H' off) (rep_fuel (rg_end r) inp off) (rg_end r) (off + n) [v] n t1 s1 s2 c (Nat.le_0_l _) Logic.I Logic.I)
    as (t2 & u & E2 & C2 & _). rewrite E2. destruct (m_loop _ m _ _ inp (off + n) [v] n c) as [d c2]. cbn [fst snd] in *. fin.
Qed.
Lemma tf_lazy : forall A (g : sobj A) m, Timed false g m -> TFree (s_lazy g) (m_lazy m).
Proof.
  intros A g m (F & V & H0 & _ & H2 & _) off t s _. destruct (H2 off ltac:(discriminate) t (st0 g) H0) as (t1 & s1 & E & C & _). cbn [s_lazy srun]. rewrite E. unfold m_lazy, m_one.
  destruct (m inp off) as [o c]. cbn [fst snd] in *. fin.
Qed.

Lemma ti_prim : forall nz A (p : parser N A) m, erases m p -> Timed nz (s_prim p) m.
Proof. intros nz A p m H. now apply tfree_timed, tf_prim. Qed.
Lemma ti_id : forall nz A (g : sobj A) m, Timed nz g m -> Timed nz g (m_id m).
Proof. intros nz A g m (F & V & H0 & H1 & H2 & H3 & H4). exists F, V. split; [exact H0|]. split; [exact H1|]. split; [|split]; intros; apply ts_id; auto. Qed.
Lemma ti_one : forall nz A B (f : outcome N A -> list N -> nat -> outcome N B) k g m, (forall o inp off, f o inp off = k (fun _ _ => o) inp off) -> Timed nz g m -> Timed nz (s_lift f g) (m_one k m).
Proof. intros nz A B f k g m K (F & V & H0 & H1 & H2 & H3 & H4). exists F, V. split; [exact H0|]. split; [exact H1|]. split; [|split]; intros; apply ts_one; auto. Qed.
Lemma ti_two : forall nz A B C (f : A -> B -> C) k g h m m', joins f k -> Timed nz g m -> Timed nz h m' -> Timed nz (s_seq f g h) (m_two k m m').
Proof.
  intros nz A B C f k g h m m' J (F & V & H0 & H1 & H2 & H3 & H4) (F' & V' & G0 & G1 & G2 & G3 & G4).
  exists (fun s => F (fst s) /\ F' (snd s)), (fun s => V (fst s) /\ V' (snd s)). split; [split; assumption|]. split; [intros s [? ?]; split; auto|]. split; [|split].
  - intros off Ho. apply ts_two; auto. intros n x E. apply G2. intros Hn. specialize (Ho Hn). lia.
  - intros off Ho. apply ts_two; auto. intros n x E. apply G3. lia.
  - intros off Ho. apply ts_two; auto. intros n x E. apply G4. lia.
Qed.
Lemma ti_or : forall nz A (g h : sobj A) m m', Timed nz g m -> Timed nz h m' -> Timed nz (s_or g h) (m_or m m').
Proof.
  intros nz A g h m m' (F & V & H0 & H1 & H2 & H3 & H4) (F' & V' & G0 & G1 & G2 & G3 & G4).
  exists (fun s => F (fst s) /\ F' (snd s)), (fun s => V (fst s) /\ V' (snd s)). split; [split; assumption|]. split; [intros s [? ?]; split; auto|].
  split; [|split]; intros; apply ts_or; auto.
Qed.
(** A repeated object is run at 0 and then not at 1. *)
Lemma ti_rep : forall nz A (g : sobj A) r m, Timed nz g m -> consumes 2 (bare m) -> Timed nz (s_rep g r) (m_rep m r (None : option (mparser unit))).
Proof.
  intros nz A g r m (F & V & H0 & H1 & H2 & H3 & H4) Hc. exists F, V. split; [exact H0|]. split; [exact H1|].
  assert (Far : forall off (P Q : st g -> Prop), tstep g m off P Q -> (forall v n, bare m inp off = Success v n -> 2 <= off + n) -> (forall off, 2 <= off -> tstep g m off Q Q) ->
    tstep (s_rep g r) (m_rep m r (None : option (mparser unit))) off P Q).
  { intros off P Q HP Hn HQ t. cbn [st s_rep]. intros s Hs. destruct (HP t s Hs) as (t1 & s1 & E & C & K). cbn [s_rep srun]. unfold m_rep. rewrite E. unfold bare in Hn.
    destruct (m inp off) as [o c]. cbn [fst snd] in *. destruct o as [v n|e b| |]; try fin.
    destruct (ts_loop _ _ _ 2 _ HQ (rep_fuel (rg_end r) inp off) (rg_end r) (off + n) [v] n t1 s1 c (Hn v n eq_refl) K) as (t2 & s2 & E2 & C2 & K2). rewrite E2.
    destruct (m_loop _ m _ _ inp (off + n) [v] n c) as [d c2]. cbn [fst snd] in *. fin. }
  split; [|split]; intros off Ho; apply Far; auto; intros v n E; apply Hc in E; lia.
Qed.
Lemma ti_chain : forall nz A (g : sobj A) h m op, Timed nz g m -> (forall off, tstep h op off (fun _ => True) (fun _ => True)) -> consumes 1 (bare m) -> consumes 1 (bare op) ->
  Timed nz (s_chain_left1 g h) (m_chain_left1 m op).
Proof.
  intros nz A g h m op (F & V & H0 & H1 & H2 & H3 & H4) G C1 C2.
  exists (fun s => F (fst s) /\ True), (fun s => V (fst s) /\ True). split; [split; auto|]. split; [intros s [? ?]; split; auto|].
  assert (Far : forall off (P Q : st g -> Prop), 2 <= off -> (forall off, 2 <= off -> tstep g m off P P) ->
    tstep (s_chain_left1 g h) (m_chain_left1 m op) off (fun s => P (fst s) /\ True) (fun s => P (fst s) /\ True)).
  { intros off P Q Ho HP t [s s2] [Hs _]. cbn [fst snd] in Hs. destruct (HP off Ho t s Hs) as (t1 & s1 & E & C & K). cbn [s_chain_left1 srun].
    unfold m_chain_left1. rewrite E. destruct (m inp off) as [o c]. cbn [fst snd] in *. destruct o as [v n|e b| |]; try fin.
    destruct (ts_rest _ _ _ _ _ 2 _ _ HP (fun off _ => G off) (chain_fuel inp (off + n)) v (off + n) t1 s1 s2 ltac:(lia) K Logic.I) as (t2 & u & E2 & K2 & K3 & _). rewrite E2.
    destruct (m_rest _ m op v inp (off + n)) as [r c2]. cbn [fst snd] in *. fin. }
  split; [|split; intros off Ho; now apply Far]. intros off Ho t [s s2] [Hs _]. cbn [fst snd] in Hs. destruct (H2 off Ho t s Hs) as (t1 & s1 & E & C & K). cbn [s_chain_left1 srun].
  unfold m_chain_left1. rewrite E. specialize (C1 inp off). unfold bare in C1. destruct (m inp off) as [o c]. cbn [fst snd] in *. destruct o as [v n|e b| |]; try fin.
  specialize (C1 v n eq_refl). destruct (Nat.le_gt_cases 2 (off + n)) as [Hfar|Hnear].
  - destruct (ts_rest _ _ _ _ _ 2 _ _ H4 (fun off _ => G off) (chain_fuel inp (off + n)) v (off + n) t1 s1 s2 Hfar K Logic.I) as (t2 & u & E2 & K2 & K3 & _). rewrite E2.
    destruct (m_rest _ m op v inp (off + n)) as [r c2]. cbn [fst snd] in *. fin.
  - unfold chain_fuel. generalize (S (length inp - (off + n))) as fuel. intros fuel. cbn [s_rest m_rest].
    destruct (G (off + n) t1 s2 Logic.I) as (t2 & u2 & E2 & C' & _). rewrite E2. unfold m_or. specialize (C2 inp (off + n)). unfold bare in C2. destruct (op inp (off + n)) as [o c']. cbn [fst snd] in *.
    destruct o as [f i|e b| |].
    + specialize (C2 f i eq_refl). destruct (H4 (off + n + i) ltac:(lia) t2 s1 K) as (t3 & u1 & E3 & C3 & K3). rewrite E3. destruct (m inp (off + n + i)) as [o c3]. cbn [fst snd] in *. destruct o as [y j|e b| |].
      * destruct (ts_rest _ _ _ _ _ 2 _ _ H4 (fun off _ => G off) fuel (f v y) (off + n + i + j) t3 u1 u2 ltac:(lia) K3 Logic.I) as (t4 & w & E4 & C4 & K4 & _). rewrite E4.
        destruct (m_rest fuel m op (f v y) inp (off + n + i + j)) as [r c4]. cbn [fst snd] in *. unfold p_or. destruct (advance_success i (add_commit (negb (i =? 0)) (advance_success j r))) as [z q|z [|]| |]; cbn [negb]; fin.
      * unfold p_or. destruct (advance_success i (add_commit (negb (i =? 0)) (Failure e b))) as [z q|z [|]| |]; cbn [negb]; fin.
      * fin.
      * fin.
    + unfold p_or. destruct b; cbn [negb]; fin.
    + fin.
    + fin.
Qed.
Lemma ti_cache : forall nz A (g : sobj A) m, Timed nz g m -> Timed nz (s_cache g) (m_cache m).
Proof.
  intros nz A g m (F & V & H0 & H1 & H2 & H3 & H4).
  exists (fun s => (forall k l o, In (k, l, o) (fst s) -> 1 <= l /\ o = bare m inp (S l)) /\ F (snd s)),
    (fun s => (exists z, forall k l o, In (k, l, o) (fst s) -> 1 <= l /\ o = bare m inp (S l) \/ l = 0 /\ o = bare m inp z) /\ V (snd s)).
  assert (L : forall off, 2 <= off -> 1 <= last_offset_or0 off /\ S (last_offset_or0 off) = off).
  { intros off Ho. unfold last_offset_or0. destruct (Nat.ltb_spec 0 off); lia. }
  unfold m_cache. split; [split; [intros k l o []|exact H0]|]. split; [|split; [|split]].
  - intros [f s] [K J]. split; [exists 0; intros k l o Hi; left; now apply (K k)|now apply H1].
  - intros off Ho t [f s] [K J]. cbn [fst snd] in K, J. cbn [s_cache srun]. rewrite id_fst, id_cnt. destruct (m_find f (a t) (last_offset_or0 off)) as [o|] eqn:Ef.
    + apply m_find_in, K in Ef. destruct Ef as [E1 ->]. unfold last_offset_or0 in *. destruct (Nat.ltb_spec 0 off); [|lia]. replace (S (off - 1)) with off by lia.
      do 2 eexists; split; [reflexivity|]. split; [lia|]. split; [exists 0; intros k l o Hi; left; now apply (K k)|now apply H1].
    + destruct (H2 off Ho (S t) s J) as (t' & s' & E & C & K2). rewrite E. do 2 eexists; split; [reflexivity|]. split; [lia|]. split; [|exact K2].
      exists off. cbn [fst]. intros k l o [Hi|Hi]; [|left; now apply K in Hi]. injection Hi as _ <- <-. unfold last_offset_or0.
      destruct (Nat.ltb_spec 0 off); [|right; now split]. destruct (Nat.eq_dec off 1) as [->|]; [right; now split|left]. split; [lia|]. unfold bare. do 2 f_equal. lia.
  - intros off Ho t [f s] [K J]. cbn [fst snd] in K, J. destruct (L off Ho) as [L1 L2]. cbn [s_cache srun]. rewrite id_fst, id_cnt. destruct (m_find f (a t) (last_offset_or0 off)) as [o|] eqn:Ef.
    + apply m_find_in, K in Ef. destruct Ef as [E1 ->]. rewrite L2. do 2 eexists; split; [reflexivity|]. split; [lia|]. now split.
    + destruct (H3 off Ho (S t) s J) as (t' & s' & E & C & K2). rewrite E. do 2 eexists; split; [reflexivity|]. split; [lia|]. split; [|exact K2].
      cbn [fst]. intros k l o [Hi|Hi]; [|now apply K in Hi]. injection Hi as _ <- <-. split; [exact L1|now rewrite L2].
  - intros off Ho t [f s] [[z K] J]. cbn [fst snd] in K, J. destruct (L off Ho) as [L1 L2]. cbn [s_cache srun]. rewrite id_fst, id_cnt. destruct (m_find f (a t) (last_offset_or0 off)) as [o|] eqn:Ef.
    + apply m_find_in, K in Ef. destruct Ef as [[E1 ->]|[E1 _]]; [|lia]. rewrite L2. do 2 eexists; split; [reflexivity|]. split; [lia|]. split; [now exists z|exact J].
    + destruct (H4 off Ho (S t) s J) as (t' & s' & E & C & K2). rewrite E. do 2 eexists; split; [reflexivity|]. split; [lia|]. split; [|exact K2].
      exists z. cbn [fst]. intros k l o [Hi|Hi]; [|now apply K in Hi]. injection Hi as _ <- <-. left. split; [exact L1|now rewrite L2].
Qed.
End Timed.
