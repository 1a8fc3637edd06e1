(** When no cache of an object is asked twice for the same offset: invariants of the maps inside parser objects (cache_parsers_impl.rs 13-37). *)
From Verif Require Import Base Core Comb CacheSim CacheOnce.
Set Implicit Arguments.
Local Open Scope string_scope.
Local Open Scope nat_scope.
Local Open Scope list_scope.

(** What a run consumed, if it succeeded. *)
Definition took {A} (o : outcome N A) : option nat := match o with Success _ n => Some n | _ => None end.

Section Tidy.
Variable a : nat -> nat.
Variable inp : list N.
Notation Free := (Free a inp).

(** From a state of [B b] the object may be run at every offset from [b] on, and its outcome is the one of [p].  If the run at [off] took [r] and
    [P off r e] holds, the object may afterwards be run at every offset from [e] on (from 2 on if [e] is less: the key of 0 is the key of 1). *)
Definition Tidy (P : nat -> option nat -> nat -> Prop) {A} (g : sobj A) (p : parser N A) : Prop :=
  exists B : nat -> st g -> Prop, B 0 (st0 g) /\ (forall b b' s, b <= b' -> B b s -> B b' s) /\
    forall off b t s, b <= off -> B b s -> exists t' s', srun g a inp off (t, s) = (p inp off, (t', s')) /\
      forall e, off <= e -> P off (took (p inp off)) e -> B (Nat.max 2 e) s'.
(** A new object may be run once. *)
Definition never : nat -> option nat -> nat -> Prop := fun _ _ _ => False.
(** After a success the object may be run from the end of it on. *)
Definition done : nat -> option nat -> nat -> Prop := fun off r e => exists n, r = Some n /\ off + n <= e.
(** After a failure also, from the next offset on. *)
Definition any : nat -> option nat -> nat -> Prop := fun off r e => match r with Some n => off + n <= e | None => off < e end.

Lemma tidy_run : forall P A (g : sobj A) p, Tidy P g p -> s_parse g a inp = parse p inp.
Proof. intros P A g p (B & H0 & _ & H). destruct (H 0 0 0 (st0 g) (le_n _) H0) as (t & s & E & _). unfold s_parse. rewrite E. reflexivity. Qed.
Lemma tidy_weaken : forall (P P' : nat -> option nat -> nat -> Prop) A (g : sobj A) p, Tidy P g p ->
  (forall off e, off <= e -> P' off (took (p inp off)) e -> P off (took (p inp off)) e) -> Tidy P' g p.
Proof.
  intros P P' A g p (B & H0 & H1 & H) K. exists B. split; [exact H0|]. split; [exact H1|]. intros off b t s Hb Hs. destruct (H off b t s Hb Hs) as (t' & s' & E & J).
  exists t', s'. split; [exact E|]. intros e He Hp. apply J; [exact He|now apply K].
Qed.
Lemma tidy_never : forall P A (g : sobj A) p, Tidy P g p -> Tidy never g p.
Proof. intros P A g p H. eapply tidy_weaken; [exact H|]. intros off e _ []. Qed.
Lemma tidy_free : forall P A (g : sobj A) p, Free g p -> Tidy P g p.
Proof.
  intros P A g p H. exists (fun _ _ => True). split; [exact Logic.I|]. split; [auto|]. intros off b t s _ _. destruct (H off t s Logic.I) as (t' & s' & E & _). exists t', s'. auto.
Qed.
Lemma tidy_lazy : forall P A (g : sobj A) p, Tidy P g p -> Free (s_lazy g) p.
Proof.
  intros P A g p (B & H0 & _ & H) off t s _. destruct (H off 0 t (st0 g) (Nat.le_0_l _) H0) as (t1 & s1 & E & _). cbn [s_lazy srun]. rewrite E. eauto.
Qed.
Lemma tidy_lift : forall P A C (f : outcome N A -> list N -> nat -> outcome N C) g p, Tidy P g p ->
  (forall off, took (f (p inp off) inp off) = took (p inp off)) -> Tidy P (s_lift f g) (fun inp off => f (p inp off) inp off).
Proof.
  intros P A C f g p (B & H0 & H1 & H) K. exists B. split; [exact H0|]. split; [exact H1|]. intros off b t. cbn [st s_lift]. intros s Hb Hs.
  destruct (H off b t s Hb Hs) as (t' & s' & E & J). exists t', s'. cbn [s_lift srun]. rewrite E. split; [reflexivity|]. intros e He Hp. rewrite K in Hp. now apply J.
Qed.
Lemma tidy_map : forall P A C (g : sobj A) p (f : A -> C), Tidy P g p -> Tidy P (s_map g f) (p_map p f).
Proof. intros P A C g p f H. refine (tidy_lift (fun o _ _ => p_map (fun _ _ => o) f [] 0) H _). intros off. unfold p_map. destruct (p inp off); reflexivity. Qed.
Lemma tidy_attempt : forall P A (g : sobj A) p, Tidy P g p -> Tidy P (s_attempt g) (p_attempt p).
Proof. intros P A g p H. refine (tidy_lift (fun o _ _ => with_uncommitted o) H _). intros off. unfold with_uncommitted. destruct (p inp off) as [|x c| |]; try reflexivity. destruct c; reflexivity. Qed.
Lemma tidy_name : forall P A (g : sobj A) p n, Tidy P g p -> Tidy P (s_name g n) (p_name p n).
Proof.
  intros P A g p n H. refine (tidy_lift (fun o inp off => p_name (fun _ _ => o) n inp off) H _). intros off. unfold p_name.
  destruct (p inp off) as [v m|e c| |]; try reflexivity. destruct (is_custom e); reflexivity.
Qed.
Lemma tidy_seq : forall (P1 P2 P : nat -> option nat -> nat -> Prop) A C D (k : A -> C -> D) g h p q, Tidy P1 g p -> Tidy P2 h q ->
  (forall off e, off <= e -> P off (took (q_seq k p q inp off)) e ->
    P1 off (took (p inp off)) e /\ forall v n, p inp off = Success v n -> off + n <= e /\ P2 (off + n) (took (q inp (off + n))) e) ->
  Tidy P (s_seq k g h) (q_seq k p q).
Proof.
  intros P1 P2 P A C D k g h p q (B & H0 & H1 & H) (B' & G0 & G1 & G) K. exists (fun b s => B b (fst s) /\ B' b (snd s)). split; [split; assumption|].
  split; [intros b b' s L [? ?]; split; eauto|]. intros off b t [s1 s2] Hb [J1 J2]. cbn [fst snd] in J1, J2. destruct (H off b t s1 Hb J1) as (t1 & s1' & E & L).
  specialize (K off). unfold q_seq in *. cbn [s_seq srun]. rewrite E. destruct (p inp off) as [x n|e c| |] eqn:Ep.
  - destruct (G (off + n) b t1 s2 ltac:(lia) J2) as (t2 & s2' & E2 & L2). rewrite E2. eexists; eexists; split; [reflexivity|]. cbn [fst snd].
    intros e He Hp. destruct (K e He Hp) as [K1 K2]. destruct (K2 x n eq_refl) as [K3 K4]. split; [now apply L|now apply L2].
  - eexists; eexists; split; [reflexivity|]. cbn [fst snd]. intros e' He Hp. destruct (K e' He Hp) as [K1 _]. split; [now apply L|apply (G1 b); [lia|exact J2]].
  - eexists; eexists; split; [reflexivity|]. cbn [fst snd]. intros e' He Hp. destruct (K e' He Hp) as [K1 _]. split; [now apply L|apply (G1 b); [lia|exact J2]].
  - eexists; eexists; split; [reflexivity|]. cbn [fst snd]. intros e' He Hp. destruct (K e' He Hp) as [K1 _]. split; [now apply L|apply (G1 b); [lia|exact J2]].
Qed.
Lemma tidy_or : forall (P1 P2 P : nat -> option nat -> nat -> Prop) A (g h : sobj A) p q, Tidy P1 g p -> Tidy P2 h q ->
  (forall off e, off <= e -> P off (took (p_or p q inp off)) e ->
    P1 off (took (p inp off)) e /\ forall x, p inp off = Failure x false -> P2 off (took (q inp off)) e) ->
  Tidy P (s_or g h) (p_or p q).
Proof.
  intros P1 P2 P A g h p q (B & H0 & H1 & H) (B' & G0 & G1 & G) K. exists (fun b s => B b (fst s) /\ B' b (snd s)). split; [split; assumption|].
  split; [intros b b' s L [? ?]; split; eauto|]. intros off b t [s1 s2] Hb [J1 J2]. cbn [fst snd] in J1, J2. destruct (H off b t s1 Hb J1) as (t1 & s1' & E & L).
  specialize (K off). unfold p_or in *. cbn [s_or srun]. rewrite E.
  assert (Q : forall e, off <= e -> B' (Nat.max 2 e) s2) by (intros e He; apply (G1 b); [lia|exact J2]).
  destruct (p inp off) as [x n|x c| |] eqn:Ep.
  - eexists; eexists; split; [reflexivity|]. cbn [fst snd]. intros e He Hp. destruct (K e He Hp) as [K1 _]. split; [now apply L|now apply Q].
  - destruct c; cbn [negb] in *.
    + eexists; eexists; split; [reflexivity|]. cbn [fst snd]. intros e He Hp. destruct (K e He Hp) as [K1 _]. split; [now apply L|now apply Q].
    + destruct (G off b t1 s2 Hb J2) as (t2 & s2' & E2 & L2). rewrite E2. eexists; eexists; split; [reflexivity|]. cbn [fst snd].
      intros e He Hp. destruct (K e He Hp) as [K1 K2]. split; [now apply L|apply L2; [exact He|now apply (K2 x)]].
  - eexists; eexists; split; [reflexivity|]. cbn [fst snd]. intros e He Hp. destruct (K e He Hp) as [K1 _]. split; [now apply L|now apply Q].
  - eexists; eexists; split; [reflexivity|]. cbn [fst snd]. intros e He Hp. destruct (K e He Hp) as [K1 _]. split; [now apply L|now apply Q].
Qed.
(** The map of a cache must not have an entry for the offset of a run. *)
Lemma tidy_once : forall (P1 P : nat -> option nat -> nat -> Prop) A (g : sobj A) p, Tidy P1 g p ->
  (forall off e, off <= e -> P off (took (p inp off)) e -> P1 off (took (p inp off)) e /\ off < e) -> Tidy P (s_once g) p.
Proof.
  intros P1 P A g p (B & H0 & H1 & H) K. exists (fun b s => (forall k l o, In (k, l, o) (fst s) -> 2 <= b /\ S l < b) /\ B b (snd s)).
  split; [split; [intros k l o []|exact H0]|]. split; [intros b b' s L [J1 J2]; split; [intros k l o Hi; apply J1 in Hi; lia|eauto]|].
  intros off b t [m s] Hb [J1 J2]. cbn [fst snd] in J1, J2. cbn [s_once srun].
  destruct (m_find m (a t) (last_offset_or0 off)) as [o|] eqn:Ef.
  { apply m_find_in, J1 in Ef. unfold last_offset_or0 in Ef. destruct (Nat.ltb_spec 0 off); lia. }
  destruct (H off b (S t) s Hb J2) as (t' & s' & E & L). rewrite E. eexists; eexists; split; [reflexivity|]. cbn [fst snd]. intros e He Hp.
  destruct (K off e He Hp) as [K1 K2]. split; [|now apply L]. intros k l o [Hi|Hi]; [|apply J1 in Hi; lia]. injection Hi as _ <- <-. unfold last_offset_or0.
  destruct (Nat.ltb_spec 0 off); lia.
Qed.
Lemma tidy_once_never : forall P A (g : sobj A) p, Tidy P g p -> Tidy never (s_once g) p.
Proof. intros P A g p H. eapply tidy_once; [exact H|]. intros off e _ []. Qed.
Lemma tidy_once_done : forall A (g : sobj A) p, Tidy done g p -> consumes 1 p -> Tidy done (s_once g) p.
Proof.
  intros A g p H C. eapply tidy_once; [exact H|]. intros off e L [n [E K]]. split; [now exists n|]. destruct (p inp off) as [v m| | |] eqn:Ep; cbn [took] in E; try discriminate.
  apply C in Ep. injection E as ->. lia.
Qed.
Lemma tidy_once_any : forall A (g : sobj A) p, Tidy any g p -> consumes 1 p -> Tidy any (s_once g) p.
Proof.
  intros A g p H C. eapply tidy_once; [exact H|]. intros off e L K. split; [exact K|]. unfold any in K. destruct (p inp off) as [v m| | |] eqn:Ep; cbn [took] in K; try exact K.
  apply C in Ep. lia.
Qed.
Lemma tidy_any_done : forall A (g : sobj A) p, Tidy any g p -> Tidy done g p.
Proof. intros A g p H. eapply tidy_weaken; [exact H|]. intros off e _ [n [E K]]. rewrite E. exact K. Qed.
Lemma tidy_or_any : forall A (g h : sobj A) p q, Tidy any g p -> Tidy any h q -> consumes 1 q -> Tidy any (s_or g h) (p_or p q).
Proof.
  intros A g h p q H1 H2 C. eapply tidy_or; [exact H1|exact H2|]. intros off e He. unfold p_or. destruct (p inp off) as [v n|x c| |] eqn:Ep; intros K; try (split; [exact K|discriminate]).
  destruct c; cbn [negb] in K; [split; [exact K|discriminate]|]. split; [|intros y _; exact K]. unfold any in *. destruct (q inp off) as [w m| | |] eqn:Eq; cbn [took] in *; try exact K.
  apply C in Eq. lia.
Qed.
Lemma tidy_or_never : forall P1 P2 A (g h : sobj A) p q, Tidy P1 g p -> Tidy P2 h q -> Tidy never (s_or g h) (p_or p q).
Proof. intros P1 P2 A g h p q H1 H2. eapply tidy_or; [exact H1|exact H2|]. intros off e _ []. Qed.
Lemma tidy_seq_never : forall P1 P2 A C D (k : A -> C -> D) g h p q, Tidy P1 g p -> Tidy P2 h q -> Tidy never (s_seq k g h) (q_seq k p q).
Proof. intros P1 P2 A C D k g h p q H1 H2. eapply tidy_seq; [exact H1|exact H2|]. intros off e _ []. Qed.
Lemma tidy_seq_done : forall A C D (k : A -> C -> D) g h p q, Tidy done g p -> Tidy done h q -> Tidy done (s_seq k g h) (q_seq k p q).
Proof.
  intros A C D k g h p q H1 H2. eapply tidy_seq; [exact H1|exact H2|]. intros off e _ [n [E K]]. unfold q_seq in E. destruct (p inp off) as [v m| | |] eqn:Ep; try discriminate.
  destruct (q inp (off + m)) as [w m'| | |] eqn:Eq; cbn [took] in E; try discriminate. injection E as <-. split; [exists m; split; [reflexivity|lia]|].
  intros v' n' E. injection E as <- <-. split; [lia|]. rewrite Eq. exists m'. split; [reflexivity|lia].
Qed.

(** *** Loops *)
Lemma tidy_rep : forall (P : nat -> option nat -> nat -> Prop) A (g : sobj A) r p, Tidy P g p -> consumes 2 p ->
  (forall off v n, p inp off = Success v n -> P off (Some n) (off + n)) -> Tidy never (s_rep g r) (p_repeat_sep p r (None : option (parser N unit))).
Proof.
  intros P A g r p (B & H0 & H1 & H) C K.
  assert (L : forall fuel rend cur items all t s, 2 <= cur -> B cur s ->
    exists t' s', s_loop fuel g rend a inp cur items all t s = (rep_loop fuel p (None : option (parser N unit)) rend inp cur items all, (t', s'))).
  { induction fuel as [|fuel IH]; intros rend cur items all t s Hc Hs; cbn [s_loop rep_loop]; [eauto|].
    destruct (rep_stop rend (length items)); [eauto|]. destruct (H cur cur t s (le_n _) Hs) as (t1 & s1 & E & J). rewrite E.
    destruct (p inp cur) as [v n|e c| |] eqn:Ep; eauto. apply IH; [lia|]. replace (cur + n) with (Nat.max 2 (cur + n)) by lia. apply J; [lia|]. now apply (K _ v). }
  exists (fun _ s => s = st0 g). split; [reflexivity|]. split; [auto|]. intros off b t s _ ->. cbn [s_rep srun].
  destruct (H off 0 t (st0 g) (Nat.le_0_l _) H0) as (t1 & s1 & E & J). unfold p_repeat_sep, repeat_sep_fuel. rewrite E.
  destruct (p inp off) as [v n|e c| |] eqn:Ep; [|eexists; eexists; split; [reflexivity|intros ? ? []]..].
  assert (2 <= off + n) by (apply C in Ep; lia). assert (Hs : B (off + n) s1).
  { replace (off + n) with (Nat.max 2 (off + n)) by lia. apply J; [lia|]. now apply (K _ v). }
  destruct (L (rep_fuel (rg_end r) inp off) (rg_end r) (off + n) [v] n t1 s1 ltac:(assumption) Hs) as (t2 & s2 & E2). rewrite E2. eexists; eexists; split; [reflexivity|intros ? ? []].
Qed.
Lemma tidy_rep_sep : forall (P : nat -> option nat -> nat -> Prop) A C (g : sobj A) r (h : sobj C) p q, Tidy P g p -> Free h q -> consumes 1 p -> consumes 1 q ->
  (forall off v n w m, p inp off = Success v n -> q inp (off + n) = Success w m -> P off (Some n) (off + n)) ->
  Tidy never (s_rep_sep g r h) (p_repeat_sep p r (Some q)).
Proof.
  intros P A C g r h p q (B & H0 & H1 & H) G C1 C2 K.
  assert (L : forall fuel rend cur items all t s s2, 1 <= cur -> (forall w m, q inp cur = Success w m -> B (Nat.max 2 cur) s) ->
    exists t' u, s_loop_sep fuel g h rend a inp cur items all t s s2 = (rep_loop fuel p (Some q) rend inp cur items all, (t', u))).
  { induction fuel as [|fuel IH]; intros rend cur items all t s s2 Hc Hs; cbn [s_loop_sep rep_loop]; [eauto|].
    destruct (rep_stop rend (length items)); [eauto|]. destruct (G cur t s2 Logic.I) as (t1 & s2' & E & _). rewrite E.
    destruct (q inp cur) as [w m|e c| |] eqn:Eq; eauto. specialize (Hs w m eq_refl). apply C2 in Eq.
    destruct (H (cur + m) (Nat.max 2 cur) t1 s ltac:(lia) Hs) as (t2 & s1' & E2 & J2). rewrite E2.
    destruct (p inp (cur + m)) as [v n|e c| |] eqn:Ep; eauto. apply IH; [lia|]. intros w' m' Eq'. apply J2; [lia|]. now apply (K _ v _ w' m'). }
  exists (fun _ s => s = (st0 g, st0 h)). split; [reflexivity|]. split; [auto|]. intros off b t s _ ->. cbn [s_rep_sep srun].
  destruct (H off 0 t (st0 g) (Nat.le_0_l _) H0) as (t1 & s1 & E & J). unfold p_repeat_sep, repeat_sep_fuel. rewrite E.
  destruct (p inp off) as [v n|e c| |] eqn:Ep; [|eexists; eexists; split; [reflexivity|intros ? ? []]..].
  assert (1 <= off + n) by (apply C1 in Ep; lia).
  destruct (L (rep_fuel (rg_end r) inp off) (rg_end r) (off + n) [v] n t1 s1 (st0 h) ltac:(assumption)) as (t2 & u & E2).
  { intros w m Eq. apply J; [lia|]. now apply (K _ v _ w m). }
  rewrite E2. eexists; eexists; split; [reflexivity|intros ? ? []].
Qed.
(** A chain: an operator without an operand fails it for good, so in a success all runs of the operand succeeded; or the first operand failed. *)
Definition first_done {A} (p : parser N A) : nat -> option nat -> nat -> Prop := fun off r e => done off r e \/ took (p inp off) = None /\ off < e.
Lemma tidy_chain : forall (P P' : nat -> option nat -> nat -> Prop) A (g : sobj A) h p op, Tidy P g p -> Free h op -> consumes 1 p -> consumes 1 op ->
  (forall off n e, took (p inp off) = Some n -> off + n <= e -> P off (Some n) e) ->
  (forall off r e, P' off r e -> done off r e \/ took (p inp off) = None /\ P off None e) ->
  Tidy P' (s_chain_left1 g h) (p_chain_left1 p op).
Proof.
  intros P P' A g h p op (B & H0 & H1 & H) G C1 C2 K1 K2.
  assert (L : forall fuel x cur t s s2, 1 <= cur -> B (Nat.max 2 cur) s ->
    exists t' s1' s2', s_rest fuel g h x a inp cur t s s2 = (rest_left1_fuel fuel p op x inp cur, (t', (s1', s2'))) /\
      forall e n, took (rest_left1_fuel fuel p op x inp cur) = Some n -> cur + n <= e -> B (Nat.max 2 e) s1').
  { induction fuel as [|fuel IH]; intros x cur t s s2 Hc Hs; cbn [s_rest rest_left1_fuel]; [do 3 eexists; split; [reflexivity|discriminate]|].
    destruct (G cur t s2 Logic.I) as (t1 & s2' & E & _). rewrite E. unfold p_or.
    destruct (op inp cur) as [f m|e c| |] eqn:Eo; [|do 3 eexists; split; [reflexivity|]; intros e' n _ He; apply (H1 (Nat.max 2 cur)); [lia|exact Hs]..].
    apply C2 in Eo. destruct (H (cur + m) (Nat.max 2 cur) t1 s ltac:(lia) Hs) as (t2 & s1' & E2 & J2). rewrite E2.
    destruct (Nat.eqb_spec m 0) as [|_]; [lia|]. cbn [negb].
    destruct (p inp (cur + m)) as [y n|e c| |] eqn:Ep.
    - assert (Hs' : B (Nat.max 2 (cur + m + n)) s1'). { apply J2; [lia|]. apply K1; [rewrite Ep; reflexivity|lia]. }
      destruct (IH (f x y) (cur + m + n) t2 s1' s2' ltac:(lia) Hs') as (t3 & u1 & u2 & E3 & J3). rewrite E3. do 3 eexists; split; [reflexivity|].
      destruct (rest_left1_fuel fuel p op (f x y) inp (cur + m + n)) as [z k|e c| |]; cbn [advance_success add_commit took negb] in *;
        [|destruct c; cbn [orb negb took]; discriminate|discriminate..].
      intros e k' Ek He. injection Ek as <-. apply (J3 e k eq_refl). lia.
    - do 3 eexists; split; [reflexivity|]. cbn [advance_success add_commit]. destruct c; cbn [orb negb took]; discriminate.
    - do 3 eexists; split; [reflexivity|]. cbn. discriminate.
    - do 3 eexists; split; [reflexivity|]. cbn. discriminate. }
  exists (fun b s => B b (fst s)). split; [exact H0|]. split; [intros b b' s Hb; now apply H1|]. intros off b t [s s2] Hb Hs. cbn [fst] in Hs. cbn [s_chain_left1 srun].
  destruct (H off b t s Hb Hs) as (t1 & s1 & E & J). unfold p_chain_left1, p_flat_map, p_rest_left1. rewrite E.
  assert (Hf : took (p inp off) = None -> forall e, off <= e -> P' off None e -> B (Nat.max 2 e) s1).
  { intros En e He Hp. destruct (K2 _ _ _ Hp) as [[n [D _]]|[_ D]]; [discriminate|]. apply J; [exact He|]. now rewrite En. }
  destruct (p inp off) as [v n|x c| |] eqn:Ep; [|eexists; eexists; split; [reflexivity|]; cbn [fst]; now apply Hf..].
  assert (Hs' : B (Nat.max 2 (off + n)) s1). { apply J; [lia|]. apply K1; [rewrite Ep; reflexivity|lia]. }
  assert (1 <= off + n) by (apply C1 in Ep; lia).
  destruct (L (chain_fuel inp (off + n)) v (off + n) t1 s1 s2 ltac:(assumption) Hs') as (t2 & u1 & u2 & E2 & J2). rewrite E2. eexists; eexists; split; [reflexivity|]. cbn [fst].
  intros e He Hp. destruct (K2 _ _ _ Hp) as [[k [D De]]|[D _]]; [|rewrite Ep in D; discriminate].
  destruct (rest_left1_fuel (chain_fuel inp (off + n)) p op v inp (off + n)) as [z k'| | |]; cbn [advance_success add_commit took] in D; try discriminate. injection D as <-.
  apply (J2 e k' eq_refl). lia.
Qed.
Lemma tidy_chain_done : forall A (g : sobj A) h p op, Tidy done g p -> Free h op -> consumes 1 p -> consumes 1 op -> Tidy done (s_chain_left1 g h) (p_chain_left1 p op).
Proof. intros A g h p op H1 H2 C1 C2. eapply tidy_chain; [exact H1|exact H2|exact C1|exact C2| |]; [intros off n e _ L; now exists n|auto]. Qed.
End Tidy.
