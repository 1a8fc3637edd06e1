(** Parser objects used for several texts: the caches (cache_parsers_impl.rs 13-37) keep the answers of earlier texts.  When no state of a later text stands
    where a state of an earlier one stood, the object answers like a new one. *)
From Verif Require Import Base Core Comb CacheSim.
From Coq Require Import Lia.
Set Implicit Arguments.
Local Open Scope string_scope.
Local Open Scope nat_scope.
Local Open Scope list_scope.

(** The outcomes of one object on texts read one after the other (parser_runner_impl.rs 11-14), and the clock at the beginning of each. *)
Fixpoint s_uses {A} (g : sobj A) (a : nat -> nat) (texts : list (list N)) (c : nat * st g) : list (outcome N A) :=
  match texts with
  | [] => []
  | x :: r => let '(o, c') := srun g a x 0 c in o :: s_uses g a r c'
  end.
Fixpoint s_starts {A} (g : sobj A) (a : nat -> nat) (texts : list (list N)) (c : nat * st g) : list nat :=
  match texts with
  | [] => []
  | x :: r => let '(_, c') := srun g a x 0 c in fst c :: s_starts g a r c'
  end.

Section Reuse.
Variable a : nat -> nat.
(** No address used before the clock shows [T] is used again. *)
Definition fresh (T : nat) : Prop := forall t u, t < T -> T <= u -> a t <> a u.
Definition later (T : nat) : nat -> nat := fun t => a (T + t).
(** [I T s]: the maps in [s] have keys of addresses used before [T] only.  [R T s s']: [s] is [s'] with entries of such keys behind. *)
Definition Renew {A} (g : sobj A) : Prop :=
  exists (I : nat -> st g -> Prop) (R : nat -> st g -> st g -> Prop),
    (forall T, I T (st0 g)) /\ (forall T U s, T <= U -> I T s -> I U s) /\ (forall T s, I T s -> R T s (st0 g)) /\
    (forall inp off t s o t' s', I t s -> srun g a inp off (t, s) = (o, (t', s')) -> t <= t' /\ I t' s') /\
    (forall T inp off t s s' o t1 s1', fresh T -> R T s s' -> srun g (later T) inp off (t, s') = (o, (t1, s1')) ->
      exists s1, srun g a inp off (T + t, s) = (o, (T + t1, s1)) /\ R T s1 s1').
Lemma renew_prim : forall A (p : parser N A), Renew (s_prim p).
Proof.
  intros A p. exists (fun _ _ => True), (fun _ _ _ => True). split; [easy|]. split; [easy|]. split; [easy|]. split.
  - intros inp off t s o t' s' _ E. injection E as _ <- _. now split.
  - intros T inp off t s s' o t1 s1' _ _ E. cbn [s_prim srun st] in *. injection E as <- <- _. exists s. now split.
Qed.
Lemma renew_lift : forall A B (f : outcome N A -> list N -> nat -> outcome N B) g, Renew g -> Renew (s_lift f g).
Proof.
  intros A B f g (I & R & H0 & H1 & H2 & H3 & H4). exists I, R. split; [exact H0|]. split; [exact H1|]. split; [exact H2|]. split.
  - intros inp off t s o t' s' Hi E. cbn [s_lift srun] in E. destruct (srun g a inp off (t, s)) as [o1 [t1 s1]] eqn:E1. injection E as _ <- <-. eapply H3; eassumption.
  - intros T inp off t s s' o t1 s1' F Hr E. cbn [s_lift srun st] in *. destruct (srun g (later T) inp off (t, s')) as [o1 [t2 s2]] eqn:E1. injection E as <- <- <-.
    destruct (H4 _ _ _ _ _ _ _ _ _ F Hr E1) as (s1 & E2 & R2). exists s1. rewrite E2. now split.
Qed.
Lemma renew_seq : forall A B C (k : A -> B -> C) g h, Renew g -> Renew h -> Renew (s_seq k g h).
Proof.
  intros A B C k g h (I & R & H0 & H1 & H2 & H3 & H4) (I' & R' & G0 & G1 & G2 & G3 & G4).
  exists (fun T s => I T (fst s) /\ I' T (snd s)), (fun T s s' => R T (fst s) (fst s') /\ R' T (snd s) (snd s')). split; [now split|]. split; [intros T U s L [? ?]; split; eauto|].
  split; [intros T s [? ?]; split; cbn; auto|]. split.
  - intros inp off t [s1 s2] o t' s' [J1 J2] E. cbn [s_seq srun st fst snd] in *. destruct (srun g a inp off (t, s1)) as [o1 [t1 u1]] eqn:E1. destruct (H3 _ _ _ _ _ _ _ J1 E1) as [L1 K1].
    destruct o1 as [x n|e c| |]; try (injection E as _ <- <-; split; [exact L1|split; [exact K1|eapply G1; eauto]]).
    destruct (srun h a inp (off + n) (t1, s2)) as [o2 [t2 u2]] eqn:E2. destruct (G3 _ _ _ _ _ _ _ (G1 _ _ _ L1 J2) E2) as [L2 K2]. injection E as _ <- <-. split; [lia|]. split; [eapply H1; eauto|exact K2].
  - intros T inp off t [s1 s2] [s1' s2'] o t1 s1'' F [J1 J2] E. cbn [s_seq srun st fst snd] in *. destruct (srun g (later T) inp off (t, s1')) as [o1 [t2 u1]] eqn:E1.
    destruct (H4 _ _ _ _ _ _ _ _ _ F J1 E1) as (v1 & -> & K1). destruct o1 as [x n|e c| |]; try (injection E as <- <- <-; eexists; split; [reflexivity|split; [exact K1|exact J2]]).
    destruct (srun h (later T) inp (off + n) (t2, s2')) as [o2 [t3 u2]] eqn:E2. destruct (G4 _ _ _ _ _ _ _ _ _ F J2 E2) as (v2 & -> & K2). injection E as <- <- <-. eexists. split; [reflexivity|]. now split.
Qed.
Lemma renew_or : forall A (g h : sobj A), Renew g -> Renew h -> Renew (s_or g h).
Proof.
  intros A g h (I & R & H0 & H1 & H2 & H3 & H4) (I' & R' & G0 & G1 & G2 & G3 & G4).
  exists (fun T s => I T (fst s) /\ I' T (snd s)), (fun T s s' => R T (fst s) (fst s') /\ R' T (snd s) (snd s')). split; [now split|]. split; [intros T U s L [? ?]; split; eauto|].
  split; [intros T s [? ?]; split; cbn; auto|]. split.
  - intros inp off t [s1 s2] o t' s' [J1 J2] E. cbn [s_or srun st fst snd] in *. destruct (srun g a inp off (t, s1)) as [o1 [t1 u1]] eqn:E1. destruct (H3 _ _ _ _ _ _ _ J1 E1) as [L1 K1].
    destruct o1 as [x n|e c| |]; [|destruct c; cbn [negb] in E| |]; try (injection E as _ <- <-; split; [exact L1|split; [exact K1|eapply G1; eauto]]).
    destruct (srun h a inp off (t1, s2)) as [o2 [t2 u2]] eqn:E2. destruct (G3 _ _ _ _ _ _ _ (G1 _ _ _ L1 J2) E2) as [L2 K2]. injection E as _ <- <-. split; [lia|]. split; [eapply H1; eauto|exact K2].
  - intros T inp off t [s1 s2] [s1' s2'] o t1 s1'' F [J1 J2] E. cbn [s_or srun st fst snd] in *. destruct (srun g (later T) inp off (t, s1')) as [o1 [t2 u1]] eqn:E1.
    destruct (H4 _ _ _ _ _ _ _ _ _ F J1 E1) as (v1 & -> & K1). destruct o1 as [x n|e c| |]; [|destruct c; cbn [negb] in *| |]; try (injection E as <- <- <-; eexists; split; [reflexivity|split; [exact K1|exact J2]]).
    destruct (srun h (later T) inp off (t2, s2')) as [o2 [t3 u2]] eqn:E2. destruct (G4 _ _ _ _ _ _ _ _ _ F J2 E2) as (v2 & -> & K2). injection E as <- <- <-. eexists. split; [reflexivity|]. now split.
Qed.
Lemma renew_lazy : forall A (g : sobj A), Renew g -> Renew (s_lazy g).
Proof.
  intros A g (I & R & H0 & H1 & H2 & H3 & H4). exists (fun _ _ => True), (fun _ _ _ => True). split; [easy|]. split; [easy|]. split; [easy|]. split.
  - intros inp off t s o t' s' _ E. cbn [s_lazy srun] in E. destruct (srun g a inp off (t, st0 g)) as [o1 [t1 u1]] eqn:E1. destruct (H3 _ _ _ _ _ _ _ (H0 t) E1) as [L _]. injection E as _ <- _. now split.
  - intros T inp off t s s' o t1 s1' F _ E. cbn [s_lazy srun st] in *. destruct (srun g (later T) inp off (t, st0 g)) as [o1 [t2 u1]] eqn:E1.
    destruct (H4 _ _ _ _ _ _ _ _ _ F (H2 _ _ (H0 T)) E1) as (v & -> & _). injection E as <- <- _. exists tt. now split.
Qed.
Lemma renew_rep : forall A (g : sobj A) r, Renew g -> Renew (s_rep g r).
Proof.
  intros A g r (I & R & H0 & H1 & H2 & H3 & H4). exists I, R. split; [exact H0|]. split; [exact H1|]. split; [exact H2|].
  assert (L : forall fuel rend inp cur items all t s d t' s', I t s -> s_loop fuel g rend a inp cur items all t s = (d, (t', s')) -> t <= t' /\ I t' s').
  { induction fuel as [|fuel IH]; intros rend inp cur items all t s d t' s' J E; cbn [s_loop] in E; [injection E as _ <- <-; now split|].
    destruct (rep_stop rend (length items)); [injection E as _ <- <-; now split|]. destruct (srun g a inp cur (t, s)) as [o [t1 u]] eqn:E1. destruct (H3 _ _ _ _ _ _ _ J E1) as [L K].
    destruct o; try (injection E as _ <- <-; now split). destruct (IH _ _ _ _ _ _ _ _ _ _ K E). split; [lia|assumption]. }
  assert (M : forall fuel rend T inp cur items all t s s' d t1 s1', fresh T -> R T s s' -> s_loop fuel g rend (later T) inp cur items all t s' = (d, (t1, s1')) ->
    exists s1, s_loop fuel g rend a inp cur items all (T + t) s = (d, (T + t1, s1)) /\ R T s1 s1').
  { induction fuel as [|fuel IH]; intros rend T inp cur items all t s s' d t1 s1' F J E; cbn [s_loop] in *; [injection E as <- <- <-; eauto|].
    destruct (rep_stop rend (length items)); [injection E as <- <- <-; eauto|]. destruct (srun g (later T) inp cur (t, s')) as [o [t2 u]] eqn:E1.
    destruct (H4 _ _ _ _ _ _ _ _ _ F J E1) as (v & -> & K). destruct o; try (injection E as <- <- <-; eauto). eapply IH; eassumption. }
  split.
  - intros inp off t s o t' s' J E. cbn [s_rep srun st] in *. destruct (srun g a inp off (t, s)) as [o1 [t1 u]] eqn:E1. destruct (H3 _ _ _ _ _ _ _ J E1) as [L1 K].
    destruct o1 as [v n|e c| |]; [|injection E as _ <- <-; now split..]. destruct (s_loop _ _ _ _ _ _ _ _ _ _) as [d [t2 u2]] eqn:E2. injection E as _ <- <-. destruct (L _ _ _ _ _ _ _ _ _ _ _ K E2). split; [lia|assumption].
  - intros T inp off t s s' o t1 s1' F J E. cbn [s_rep srun st] in *. destruct (srun g (later T) inp off (t, s')) as [o1 [t2 u]] eqn:E1. destruct (H4 _ _ _ _ _ _ _ _ _ F J E1) as (v1 & -> & K).
    destruct o1 as [v n|e c| |]; [|injection E as <- <- <-; eauto..]. destruct (s_loop _ _ _ (later T) _ _ _ _ _ _) as [d [t3 u2]] eqn:E2. injection E as <- <- <-.
    destruct (M _ _ _ _ _ _ _ _ _ _ _ _ _ F K E2) as (v2 & -> & K2). eauto.
Qed.
Lemma renew_rep_sep : forall A B (g : sobj A) r (h : sobj B), Renew g -> Renew h -> Renew (s_rep_sep g r h).
Proof.
  intros A B g r h (I & R & H0 & H1 & H2 & H3 & H4) (I' & R' & G0 & G1 & G2 & G3 & G4).
  exists (fun T s => I T (fst s) /\ I' T (snd s)), (fun T s s' => R T (fst s) (fst s') /\ R' T (snd s) (snd s')). split; [now split|]. split; [intros T U s L [? ?]; split; eauto|].
  split; [intros T s [? ?]; split; cbn; auto|].
  assert (L : forall fuel rend inp cur items all t s1 s2 d t' s', I t s1 -> I' t s2 -> s_loop_sep fuel g h rend a inp cur items all t s1 s2 = (d, (t', s')) -> t <= t' /\ I t' (fst s') /\ I' t' (snd s')).
  { induction fuel as [|fuel IH]; intros rend inp cur items all t s1 s2 d t' s' J1 J2 E; cbn [s_loop_sep] in E; [injection E as _ <- <-; now repeat split|].
    destruct (rep_stop rend (length items)); [injection E as _ <- <-; now repeat split|]. destruct (srun h a inp cur (t, s2)) as [o [t1 u2]] eqn:E2. destruct (G3 _ _ _ _ _ _ _ J2 E2) as [L2 K2].
    destruct o as [w n|e c| |]; try (injection E as _ <- <-; split; [exact L2|split; [eapply H1; eauto|exact K2]]).
    destruct (srun g a inp (cur + n) (t1, s1)) as [o1 [t3 u1]] eqn:E1. destruct (H3 _ _ _ _ _ _ _ (H1 _ _ _ L2 J1) E1) as [L1 K1].
    destruct o1 as [v m|e c| |]; try (injection E as _ <- <-; split; [lia|split; [exact K1|eapply G1; eauto]]).
    destruct (IH _ _ _ _ _ _ _ _ _ _ _ K1 (G1 _ _ _ L1 K2) E). split; [lia|assumption]. }
  assert (M : forall fuel rend T inp cur items all t s1 s2 s1' s2' d t1 s', fresh T -> R T s1 s1' -> R' T s2 s2' -> s_loop_sep fuel g h rend (later T) inp cur items all t s1' s2' = (d, (t1, s')) ->
    exists u, s_loop_sep fuel g h rend a inp cur items all (T + t) s1 s2 = (d, (T + t1, u)) /\ R T (fst u) (fst s') /\ R' T (snd u) (snd s')).
  { induction fuel as [|fuel IH]; intros rend T inp cur items all t s1 s2 s1' s2' d t1 s' F J1 J2 E; cbn [s_loop_sep] in *; [injection E as <- <- <-; eauto|].
    destruct (rep_stop rend (length items)); [injection E as <- <- <-; eauto|]. destruct (srun h (later T) inp cur (t, s2')) as [o [t2 u2]] eqn:E2.
    destruct (G4 _ _ _ _ _ _ _ _ _ F J2 E2) as (v2 & -> & K2). destruct o as [w n|e c| |]; try (injection E as <- <- <-; eauto).
    destruct (srun g (later T) inp (cur + n) (t2, s1')) as [o1 [t3 u1]] eqn:E1. destruct (H4 _ _ _ _ _ _ _ _ _ F J1 E1) as (v1 & -> & K1).
    destruct o1 as [v m|e c| |]; try (injection E as <- <- <-; eauto). eapply IH; eassumption. }
  split.
  - intros inp off t [s1 s2] o t' s' [J1 J2] E. cbn [s_rep_sep srun st fst snd] in *. destruct (srun g a inp off (t, s1)) as [o1 [t1 u]] eqn:E1. destruct (H3 _ _ _ _ _ _ _ J1 E1) as [L1 K].
    destruct o1 as [v n|e c| |]; [|injection E as _ <- <-; split; [exact L1|split; [exact K|eapply G1; eauto]]..].
    destruct (s_loop_sep _ _ _ _ _ _ _ _ _ _ _ _) as [d [t2 u2]] eqn:E2. injection E as _ <- <-. destruct (L _ _ _ _ _ _ _ _ _ _ _ _ K (G1 _ _ _ L1 J2) E2). split; [lia|assumption].
  - intros T inp off t [s1 s2] [s1' s2'] o t1 s' F [J1 J2] E. cbn [s_rep_sep srun st fst snd] in *. destruct (srun g (later T) inp off (t, s1')) as [o1 [t2 u]] eqn:E1.
    destruct (H4 _ _ _ _ _ _ _ _ _ F J1 E1) as (v1 & -> & K). destruct o1 as [v n|e c| |]; [|injection E as <- <- <-; eauto..].
    destruct (s_loop_sep _ _ _ _ (later T) _ _ _ _ _ _ _) as [d [t3 u2]] eqn:E2. injection E as <- <- <-. destruct (M _ _ _ _ _ _ _ _ _ _ _ _ _ _ _ F K J2 E2) as (v2 & -> & K2). eauto.
Qed.
Lemma renew_chain : forall A (g : sobj A) h, Renew g -> Renew h -> Renew (s_chain_left1 g h).
Proof.
  intros A g h (I & R & H0 & H1 & H2 & H3 & H4) (I' & R' & G0 & G1 & G2 & G3 & G4).
  exists (fun T s => I T (fst s) /\ I' T (snd s)), (fun T s s' => R T (fst s) (fst s') /\ R' T (snd s) (snd s')). split; [now split|]. split; [intros T U s L [? ?]; split; eauto|].
  split; [intros T s [? ?]; split; cbn; auto|].
  assert (L : forall fuel x inp cur t s1 s2 d t' s', I t s1 -> I' t s2 -> s_rest fuel g h x a inp cur t s1 s2 = (d, (t', s')) -> t <= t' /\ I t' (fst s') /\ I' t' (snd s')).
  { induction fuel as [|fuel IH]; intros x inp cur t s1 s2 d t' s' J1 J2 E; cbn [s_rest] in E; [injection E as _ <- <-; now repeat split|].
    destruct (srun h a inp cur (t, s2)) as [o [t1 u2]] eqn:E2. destruct (G3 _ _ _ _ _ _ _ J2 E2) as [L2 K2].
    destruct o as [w n|e c| |]; try (injection E as _ <- <-; split; [exact L2|split; [eapply H1; eauto|exact K2]]).
    destruct (srun g a inp (cur + n) (t1, s1)) as [o1 [t3 u1]] eqn:E1. destruct (H3 _ _ _ _ _ _ _ (H1 _ _ _ L2 J1) E1) as [L1 K1].
    destruct o1 as [v m|e c| |]; try (injection E as _ <- <-; split; [lia|split; [exact K1|eapply G1; eauto]]).
    destruct (s_rest fuel g h (w x v) a inp (cur + n + m) t3 u1 u2) as [d1 [t4 u4]] eqn:E4. injection E as _ <- <-. destruct (IH _ _ _ _ _ _ _ _ _ K1 (G1 _ _ _ L1 K2) E4). split; [lia|assumption]. }
  assert (M : forall fuel x T inp cur t s1 s2 s1' s2' d t1 s', fresh T -> R T s1 s1' -> R' T s2 s2' -> s_rest fuel g h x (later T) inp cur t s1' s2' = (d, (t1, s')) ->
    exists u, s_rest fuel g h x a inp cur (T + t) s1 s2 = (d, (T + t1, u)) /\ R T (fst u) (fst s') /\ R' T (snd u) (snd s')).
  { induction fuel as [|fuel IH]; intros x T inp cur t s1 s2 s1' s2' d t1 s' F J1 J2 E; cbn [s_rest] in *; [injection E as <- <- <-; eauto|].
    destruct (srun h (later T) inp cur (t, s2')) as [o [t2 u2]] eqn:E2.
    destruct (G4 _ _ _ _ _ _ _ _ _ F J2 E2) as (v2 & -> & K2). destruct o as [w n|e c| |]; try (injection E as <- <- <-; eauto).
    destruct (srun g (later T) inp (cur + n) (t2, s1')) as [o1 [t3 u1]] eqn:E1. destruct (H4 _ _ _ _ _ _ _ _ _ F J1 E1) as (v1 & -> & K1).
    destruct o1 as [v m|e c| |]; try (injection E as <- <- <-; eauto).
    destruct (s_rest fuel g h (w x v) (later T) inp (cur + n + m) t3 u1 u2) as [d1 [t4 u4]] eqn:E4. injection E as <- <- <-. destruct (IH _ _ _ _ _ _ _ _ _ _ _ _ F K1 K2 E4) as (v4 & -> & K4). eauto. }
  split.
  - intros inp off t [s1 s2] o t' s' [J1 J2] E. cbn [s_chain_left1 srun st fst snd] in *. destruct (srun g a inp off (t, s1)) as [o1 [t1 u]] eqn:E1. destruct (H3 _ _ _ _ _ _ _ J1 E1) as [L1 K].
    destruct o1 as [v n|e c| |]; [|injection E as _ <- <-; split; [exact L1|split; [exact K|eapply G1; eauto]]..].
    destruct (s_rest _ _ _ _ _ _ _ _ _ _) as [d [t2 u2]] eqn:E2. injection E as _ <- <-. destruct (L _ _ _ _ _ _ _ _ _ _ K (G1 _ _ _ L1 J2) E2). split; [lia|assumption].
  - intros T inp off t [s1 s2] [s1' s2'] o t1 s' F [J1 J2] E. cbn [s_chain_left1 srun st fst snd] in *. destruct (srun g (later T) inp off (t, s1')) as [o1 [t2 u]] eqn:E1.
    destruct (H4 _ _ _ _ _ _ _ _ _ F J1 E1) as (v1 & -> & K). destruct o1 as [v n|e c| |]; [|injection E as <- <- <-; eauto..].
    destruct (s_rest _ _ _ _ (later T) _ _ _ _ _) as [d [t3 u2]] eqn:E2. injection E as <- <- <-. destruct (M _ _ _ _ _ _ _ _ _ _ _ _ _ F K J2 E2) as (v2 & -> & K2). eauto.
Qed.
(** The cache: entries of earlier texts stand behind those of this one, and are never found. *)
Lemma m_find_app : forall A (m m' : list (nat * nat * outcome N A)) k l, m_find (m ++ m') k l = match m_find m k l with Some o => Some o | None => m_find m' k l end.
Proof. induction m as [|[[k' l'] o] m IH]; intros m' k l; [reflexivity|]. cbn [app m_find]. destruct ((k' =? k) && (l' =? l)); [reflexivity|apply IH]. Qed.
Definition of_times {A} (T : nat) (m : list (nat * nat * outcome N A)) : Prop := Forall (fun e => exists t, t < T /\ a t = fst (fst e)) m.
Lemma of_times_none : forall A T (m : list (nat * nat * outcome N A)) u l, fresh T -> T <= u -> of_times T m -> m_find m (a u) l = None.
Proof.
  intros A T m u l F Hu H. induction H as [|[[k' l'] o] m (t & Ht & E) H IH]; [reflexivity|]. cbn [m_find fst] in *. destruct (Nat.eqb_spec k' (a u)) as [->|]; [|exact IH].
  exfalso. exact (F _ _ Ht Hu E).
Qed.
Lemma renew_cache : forall A (g : sobj A), Renew g -> Renew (s_cache g).
Proof.
  intros A g (I & R & H0 & H1 & H2 & H3 & H4).
  exists (fun T s => of_times T (fst s) /\ I T (snd s)), (fun T s s' => (exists old, fst s = fst s' ++ old /\ of_times T old) /\ R T (snd s) (snd s')).
  assert (W : forall T U (m : list (nat * nat * outcome N A)), T <= U -> of_times T m -> of_times U m).
  { intros T U m L. apply Forall_impl. intros e (t & Ht & E). exists t. split; [lia|exact E]. }
  split; [intros T; split; [constructor|apply H0]|]. split; [intros T U s L [? ?]; split; eauto|]. split; [intros T s [J K]; split; [exists (fst s); now split|cbn; auto]|]. split.
  - intros inp off t [m s] o t' s' [J K] E. cbn [s_cache srun st fst snd] in *. destruct (m_find m (a t) (last_offset_or0 off)).
    + injection E as _ <- <-. split; [lia|]. split; [eapply W; [|exact J]|eapply H1; [|exact K]]; lia.
    + destruct (srun g a inp off (S t, s)) as [o1 [t1 u]] eqn:E1. destruct (H3 inp off (S t) s o1 t1 u (H1 t (S t) s ltac:(lia) K) E1) as [L Ku]. injection E as _ <- <-. split; [lia|]. split; [|exact Ku].
      constructor; [exists t; split; [lia|reflexivity]|]. eapply W; [|exact J]. lia.
  - intros T inp off t [m s] [m' s'] o t1 s1' F [(old & Em & J) K] E. cbn [s_cache srun st fst snd] in *. subst m. rewrite m_find_app. rewrite (of_times_none _ F (Nat.le_add_r T t) J).
    change (later T t) with (a (T + t)) in E. destruct (m_find m' (a (T + t)) (last_offset_or0 off)) as [o1|].
    + injection E as <- <- <-. eexists. rewrite Nat.add_succ_r. split; [reflexivity|]. split; [exists old; now split|exact K].
    + destruct (srun g (later T) inp off (S t, s')) as [o1 [t2 u]] eqn:E1. destruct (H4 _ _ _ _ _ _ _ _ _ F K E1) as (v & E2 & K2). rewrite Nat.add_succ_r in E2. rewrite E2. injection E as <- <- <-.
      eexists. split; [reflexivity|]. split; [exists old; now split|exact K2].
Qed.

(** Each text is answered as by a new object. *)
Lemma renew_uses : forall A (g : sobj A), Renew g -> forall texts, Forall fresh (s_starts g a texts (0, st0 g)) ->
  exists Ts, length Ts = length texts /\ s_uses g a texts (0, st0 g) = map (fun tx => s_parse g (later (fst tx)) (snd tx)) (combine Ts texts).
Proof.
  intros A g (I & R & H0 & H1 & H2 & H3 & H4).
  assert (M : forall texts T s, I T s -> Forall fresh (s_starts g a texts (T, s)) ->
    exists Ts, length Ts = length texts /\ s_uses g a texts (T, s) = map (fun tx => s_parse g (later (fst tx)) (snd tx)) (combine Ts texts)).
  { induction texts as [|x r IH]; intros T s J F; [now exists []|]. cbn [s_uses s_starts] in *. destruct (srun g a x 0 (T, s)) as [o [t1 s1]] eqn:E. inversion F as [|? ? F1 F2]; subst. cbn [fst] in F1.
    destruct (H3 _ _ _ _ _ _ _ J E) as [_ J1]. destruct (IH _ _ J1 F2) as (Ts & L & U). exists (T :: Ts). split; [cbn; now rewrite L|]. cbn [combine map fst snd]. rewrite <- U. f_equal.
    unfold s_parse. destruct (srun g (later T) x 0 (0, st0 g)) as [o' [t2 s2]] eqn:E'. destruct (H4 _ _ _ _ _ _ _ _ _ F1 (H2 _ _ J) E') as (s3 & E3 & _). rewrite Nat.add_0_r in E3. rewrite E in E3. now injection E3 as <- _ _. }
  intros texts F. now apply M.
Qed.
End Reuse.
