(** Parser objects with caches inside: parser/src/internal/parsers_impl/cache_parsers_impl.rs in a grammar.  [.cache()] gives a parser object a
    map that survives the run; here an object is its state ([st], the maps inside it) and its run.  The combinators run the objects they are
    built from, in the order of the source; lazy builds a new object on every run.  The address of the ParseState in the key is an arbitrary
    function [a] of the number of cached calls made before. *)
From Verif Require Import Base Core Comb.
Set Implicit Arguments.
Local Open Scope string_scope.
Local Open Scope nat_scope.
Local Open Scope list_scope.

(** core/parser.rs 7-10: a parser object over chars or bytes; [nat] is the clock of cached calls. *)
Record sobj (A : Type) := SObj { st : Type; st0 : st; srun : (nat -> nat) -> list N -> nat -> nat * st -> outcome N A * (nat * st) }.
(** parser_runner_impl.rs 11-14: a new object is run at offset 0. *)
Definition s_parse {A} (g : sobj A) (a : nat -> nat) (inp : list N) : outcome N A := fst (srun g a inp 0 (0, st0 g)).

(** An object without caches. *)
Definition s_prim {A} (p : parser N A) : sobj A := @SObj A unit tt (fun _ inp off s => (p inp off, s)).
(** Combinators that only look at the result of one run. *)
Definition s_lift {A B} (f : outcome N A -> list N -> nat -> outcome N B) (g : sobj A) : sobj B :=
  @SObj B (st g) (st0 g) (fun a inp off s => let '(o, s') := srun g a inp off s in (f o inp off, s')).
(** internal/parsers_impl.rs 108-120 *)
Definition s_map {A B} (g : sobj A) (f : A -> B) : sobj B := s_lift (fun o _ _ => p_map (fun _ _ => o) f [] 0) g.
Definition s_map_panic {A B} (g : sobj A) (f : A -> option B) : sobj B := s_lift (fun o _ _ => p_map_panic (fun _ _ => o) f [] 0) g.
(** operator_parsers_impl.rs 79-83 *)
Definition s_attempt {A} (g : sobj A) : sobj A := s_lift (fun o _ _ => with_uncommitted o) g.
(** logging_parsers_impl.rs 28-50 *)
Definition s_name {A} (g : sobj A) (n : string) : sobj A := s_lift (fun o inp off => p_name (fun _ _ => o) n inp off) g.

(** operator_parsers_impl.rs 54-76, skip_parser_impl.rs 21-69: one run after the other. *)
Definition s_seq {A B C} (k : A -> B -> C) (g : sobj A) (h : sobj B) : sobj C :=
  @SObj C (st g * st h) (st0 g, st0 h) (fun a inp off '(t, (s1, s2)) =>
    let '(o, (t1, s1')) := srun g a inp off (t, s1) in
    match o with
    | Success x n =>
        let '(o2, (t2, s2')) := srun h a inp (off + n) (t1, s2) in
        (match o2 with Success y m => Success (k x y) (n + m) | Failure e c => Failure e c | Panic => Panic | Diverge => Diverge end, (t2, (s1', s2')))
    | Failure e c => (Failure e c, (t1, (s1', s2)))
    | Panic => (Panic, (t1, (s1', s2)))
    | Diverge => (Diverge, (t1, (s1', s2)))
    end).
Definition s_and {A B} (g : sobj A) (h : sobj B) : sobj (A * B) := s_seq pair g h.
Definition s_skip_left {A B} (g : sobj A) (h : sobj B) : sobj B := s_seq (fun _ y => y) g h.
Definition s_skip_right {A B} (g : sobj A) (h : sobj B) : sobj A := s_seq (fun x _ => x) g h.
Definition s_surround {A B C} (g : sobj A) (h : sobj B) (k : sobj C) : sobj B := s_skip_left g (s_skip_right h k).
(** operator_parsers_impl.rs 39-51 *)
Definition s_or {A} (g h : sobj A) : sobj A :=
  @SObj A (st g * st h) (st0 g, st0 h) (fun a inp off '(t, (s1, s2)) =>
    let '(o, (t1, s1')) := srun g a inp off (t, s1) in
    match o with
    | Failure e c => if negb c then let '(o2, (t2, s2')) := srun h a inp off (t1, s2) in (o2, (t2, (s1', s2'))) else (Failure e c, (t1, (s1', s2)))
    | o => (o, (t1, (s1', s2)))
    end).
(** extension/parsers/operator_parsers.rs 14-18 *)
Definition s_opt {A} (g : sobj A) : sobj (option A) := s_or (s_map (s_attempt g) (@Some A)) (s_prim (p_successful None)).

(** repeat_parsers_impl.rs 81-111 without a separator *)
Fixpoint s_loop {A} (fuel : nat) (g : sobj A) (rend : bound) (a : nat -> nat) (inp : list N) (cur : nat) (items : list A) (all : nat)
  (t : nat) (s : st g) : rep_result A * (nat * st g) :=
  match fuel with
  | 0 => (RDiverge, (t, s))
  | S fuel' =>
      if rep_stop rend (length items) then (RDone (rev items) all, (t, s))
      else
        let '(o, (t', s')) := srun g a inp cur (t, s) in
        match o with
        | Success v n => s_loop fuel' g rend a inp (cur + n) (v :: items) (all + n) t' s'
        | Failure _ _ => (RDone (rev items) all, (t', s'))
        | Panic => (RPanic, (t', s'))
        | Diverge => (RDiverge, (t', s'))
        end
  end.
(** repeat_parsers_impl.rs 81-111 with a separator *)
Fixpoint s_loop_sep {A B} (fuel : nat) (g : sobj A) (h : sobj B) (rend : bound) (a : nat -> nat) (inp : list N) (cur : nat) (items : list A) (all : nat)
  (t : nat) (s1 : st g) (s2 : st h) : rep_result A * (nat * (st g * st h)) :=
  match fuel with
  | 0 => (RDiverge, (t, (s1, s2)))
  | S fuel' =>
      if rep_stop rend (length items) then (RDone (rev items) all, (t, (s1, s2)))
      else
        let '(o, (t', s2')) := srun h a inp cur (t, s2) in
        match o with
        | Success _ n =>
            let '(o2, (t2, s1')) := srun g a inp (cur + n) (t', s1) in
            match o2 with
            | Success v m => s_loop_sep fuel' g h rend a inp (cur + n + m) (v :: items) (all + n + m) t2 s1' s2'
            | Failure _ _ => (RDone (rev items) (all + n), (t2, (s1', s2')))
            | Panic => (RPanic, (t2, (s1', s2')))
            | Diverge => (RDiverge, (t2, (s1', s2')))
            end
        | Failure _ _ => (RDone (rev items) all, (t', (s1, s2')))
        | Panic => (RPanic, (t', (s1, s2')))
        | Diverge => (RDiverge, (t', (s1, s2')))
        end
  end.
(** repeat_parsers_impl.rs 60-132 *)
Definition s_rep {A} (g : sobj A) (r : range) : sobj (list A) :=
  @SObj (list A) (st g) (st0 g) (fun a inp off '(t, s) =>
    let '(o, (t1, s1)) := srun g a inp off (t, s) in
    let '(d, s') := match o with
      | Success v n => s_loop (rep_fuel (rg_end r) inp off) g (rg_end r) a inp (off + n) [v] n t1 s1
      | Failure _ _ => (RDone [] 0, (t1, s1))
      | Panic => (RPanic, (t1, s1))
      | Diverge => (RDiverge, (t1, s1))
      end in
    (rep_finish (rg_start r) inp off d, s')).
Definition s_rep_sep {A B} (g : sobj A) (r : range) (h : sobj B) : sobj (list A) :=
  @SObj (list A) (st g * st h) (st0 g, st0 h) (fun a inp off '(t, (s, s2)) =>
    let '(o, (t1, s1)) := srun g a inp off (t, s) in
    let '(d, s') := match o with
      | Success v n => s_loop_sep (rep_fuel (rg_end r) inp off) g h (rg_end r) a inp (off + n) [v] n t1 s1 s2
      | Failure _ _ => (RDone [] 0, (t1, (s1, s2)))
      | Panic => (RPanic, (t1, (s1, s2)))
      | Diverge => (RDiverge, (t1, (s1, s2)))
      end in
    (rep_finish (rg_start r) inp off d, s')).
(** repeat_parsers_impl.rs 18-31, 42-57 *)
Definition s_many0 {A} (g : sobj A) : sobj (list A) := s_rep g (rg_from 0).
Definition s_many1 {A} (g : sobj A) : sobj (list A) := s_rep g (rg_from 1).
Definition s_many0_sep {A B} (g : sobj A) (h : sobj B) : sobj (list A) := s_rep_sep g (rg_from 0) h.
Definition s_many1_sep {A B} (g : sobj A) (h : sobj B) : sobj (list A) := s_rep_sep g (rg_from 1) h.

(** operator_parsers_impl.rs 117-153: the clones of p and op share their maps with the originals *)
Fixpoint s_rest {A} (fuel : nat) (g : sobj A) (h : sobj (A -> A -> A)) (x : A) (a : nat -> nat) (inp : list N) (off : nat)
  (t : nat) (s1 : st g) (s2 : st h) : outcome N A * (nat * (st g * st h)) :=
  match fuel with
  | 0 => (Diverge, (t, (s1, s2)))
  | S fuel' =>
      let '(o, (t1, s2')) := srun h a inp off (t, s2) in
      match o with
      | Success f n1 =>
          let '(o2, (t2, s1')) := srun g a inp (off + n1) (t1, s1) in
          match o2 with
          | Success y n2 =>
              let '(r, s') := s_rest fuel' g h (f x y) a inp (off + n1 + n2) t2 s1' s2' in
              (p_or (fun _ _ => advance_success n1 (add_commit (negb (n1 =? 0)) (advance_success n2 r))) (p_successful x) inp off, s')
          | Failure e c => (p_or (fun _ _ => advance_success n1 (add_commit (negb (n1 =? 0)) (Failure e c))) (p_successful x) inp off, (t2, (s1', s2')))
          | Panic => (Panic, (t2, (s1', s2')))
          | Diverge => (Diverge, (t2, (s1', s2')))
          end
      | Failure e c => (p_or (fun _ _ => Failure e c) (p_successful x) inp off, (t1, (s1, s2')))
      | Panic => (Panic, (t1, (s1, s2')))
      | Diverge => (Diverge, (t1, (s1, s2')))
      end
  end.
(** operator_parsers_impl.rs 94-99, internal/parsers_impl.rs 90-106 *)
Definition s_chain_left1 {A} (g : sobj A) (h : sobj (A -> A -> A)) : sobj A :=
  @SObj A (st g * st h) (st0 g, st0 h) (fun a inp off '(t, (s1, s2)) =>
    let '(o, (t1, s1')) := srun g a inp off (t, s1) in
    match o with
    | Success v n =>
        let '(r, s') := s_rest (chain_fuel inp (off + n)) g h v a inp (off + n) t1 s1' s2 in
        (advance_success n (add_commit (negb (n =? 0)) r), s')
    | Failure e c => (Failure e c, (t1, (s1', s2)))
    | Panic => (Panic, (t1, (s1', s2)))
    | Diverge => (Diverge, (t1, (s1', s2)))
    end).
(** lazy_parsers_impl.rs 8-16: a new object for every run *)
Definition s_lazy {A} (g : sobj A) : sobj A :=
  @SObj A unit tt (fun a inp off '(t, _) => let '(o, (t', _)) := srun g a inp off (t, st0 g) in (o, (t', tt))).

(** cache_parsers_impl.rs 13-37.  The object inside is run while the map is borrowed; it cannot contain the cached object. *)
Fixpoint m_find {A} (m : list (nat * nat * outcome N A)) (k l : nat) : option (outcome N A) :=
  match m with
  | [] => None
  | (k', l', o) :: m' => if (k' =? k) && (l' =? l) then Some o else m_find m' k l
  end.
Definition s_cache {A} (g : sobj A) : sobj A :=
  @SObj A (list (nat * nat * outcome N A) * st g) ([], st0 g) (fun a inp off '(t, (m, s)) =>
    match m_find m (a t) (last_offset_or0 off) with
    | Some o => (o, (S t, (m, s)))
    | None => let '(o, (t', s')) := srun g a inp off (S t, s) in (o, (t', ((a t, last_offset_or0 off, o) :: m, s')))
    end).

(** ** When the caches of an object change nothing *)
(** Successes of [p] consume at least [k] elements. *)
Definition consumes {A} (k : nat) (p : parser N A) : Prop := forall inp off v n, p inp off = Success v n -> k <= n.

Section Faith.
Variable a : nat -> nat.
Variable inp : list N.

Definition step {A} (g : sobj A) (p : parser N A) (off : nat) (P Q : st g -> Prop) : Prop :=
  forall t s, P s -> exists t' s', srun g a inp off (t, s) = (p inp off, (t', s')) /\ Q s'.
(** [F] describes states without an entry for the shared key of the offsets 0 and 1, [V] states in which all these entries are of one of the two
    offsets.  From a state of [F] the object may be run anywhere (not at 0 if [nz]); from a state of [V] only at 2 and later. *)
Definition Faith (nz : bool) {A} (g : sobj A) (p : parser N A) : Prop :=
  exists F V : st g -> Prop, F (st0 g) /\ (forall s, F s -> V s) /\ (forall off, (nz = true -> 1 <= off) -> step g p off F V) /\
    (forall off, 2 <= off -> step g p off F F) /\ (forall off, 2 <= off -> step g p off V V).
(** All states are as good as new. *)
Definition Free {A} (g : sobj A) (p : parser N A) : Prop := forall off, step g p off (fun _ => True) (fun _ => True).

Lemma free_faith : forall nz A (g : sobj A) p, Free g p -> Faith nz g p.
Proof. intros nz A g p H. exists (fun _ => True), (fun _ => True). repeat split; intros; apply H. Qed.
Lemma faith_nz : forall A (g : sobj A) p, Faith false g p -> Faith true g p.
Proof.
  intros A g p (F & V & H0 & H1 & H2 & H3 & H4). exists F, V. split; [exact H0|]. split; [exact H1|]. split; [|split; assumption]. intros off _. apply H2. discriminate.
Qed.
Lemma faith_run : forall A (g : sobj A) p, Faith false g p -> s_parse g a inp = parse p inp.
Proof.
  intros A g p (F & V & H0 & _ & H2 & _). destruct (H2 0 ltac:(discriminate) 0 (st0 g) H0) as (t & s & E & _). unfold s_parse. rewrite E. reflexivity.
Qed.

(** Only the runs over the input matter. *)
Lemma faith_ext : forall nz A (g : sobj A) p q, (forall off, p inp off = q inp off) -> Faith nz g p -> Faith nz g q.
Proof.
  intros nz A g p q E (F & V & H0 & H1 & H2 & H3 & H4). exists F, V. unfold step in *. split; [exact H0|]. split; [exact H1|].
  split; [|split]; intros off L t s Hs; rewrite <- E; [now apply H2|now apply H3|now apply H4].
Qed.

(** *** Steps *)
Lemma step_weaken : forall A (g : sobj A) p off (P P' Q Q' : st g -> Prop), step g p off P Q -> (forall s, P' s -> P s) -> (forall s, Q s -> Q' s) -> step g p off P' Q'.
Proof. intros A g p off P P' Q Q' H H1 H2 t s Hs. destruct (H t s (H1 s Hs)) as (t' & s' & E & K). exists t', s'. split; [exact E|now apply H2]. Qed.
Lemma step_prim : forall A (p : parser N A) off, step (s_prim p) p off (fun _ => True) (fun _ => True).
Proof. intros A p off t s _. exists t, s. now split. Qed.
Lemma step_lift : forall A B (f : outcome N A -> list N -> nat -> outcome N B) (g : sobj A) p off (P Q : st g -> Prop),
  step g p off P Q -> step (s_lift f g) (fun inp off => f (p inp off) inp off) off P Q.
Proof. intros A B f g p off P Q H t. cbn [st s_lift]. intros s Hs. destruct (H t s Hs) as (t' & s' & E & K). exists t', s'. cbn [s_lift srun]. rewrite E. now split. Qed.
Definition q_seq {A B C} (k : A -> B -> C) (p : parser N A) (q : parser N B) : parser N C := fun inp off =>
  match p inp off with
  | Success x n => match q inp (off + n) with Success y m => Success (k x y) (n + m) | Failure e c => Failure e c | Panic => Panic | Diverge => Diverge end
  | Failure e c => Failure e c | Panic => Panic | Diverge => Diverge end.
Lemma step_seq : forall A B C (k : A -> B -> C) (g : sobj A) (h : sobj B) p q off P1 P2 Q1 Q2,
  step g p off P1 Q1 -> (forall n x, p inp off = Success x n -> step h q (off + n) P2 Q2) -> (forall s, P2 s -> Q2 s) ->
  step (s_seq k g h) (q_seq k p q) off (fun s => P1 (fst s) /\ P2 (snd s)) (fun s => Q1 (fst s) /\ Q2 (snd s)).
Proof.
  intros A B C k g h p q off P1 P2 Q1 Q2 H1 H2 H3 t [s1 s2] [K1 K2]. cbn [fst snd] in K1, K2. destruct (H1 t s1 K1) as (t1 & s1' & E & J).
  cbn [s_seq srun]. unfold q_seq. rewrite E. destruct (p inp off) as [x n|e c| |] eqn:Ep; try (eexists; eexists; split; [reflexivity|cbn [fst snd]; auto]; fail).
  destruct (H2 n x eq_refl t1 s2 K2) as (t2 & s2' & E2 & J2). rewrite E2. eexists; eexists; split; [reflexivity|cbn [fst snd]; auto].
Qed.
Lemma step_or : forall A (g h : sobj A) p q off P1 P2 Q1 Q2, step g p off P1 Q1 -> step h q off P2 Q2 -> (forall s, P2 s -> Q2 s) ->
  step (s_or g h) (p_or p q) off (fun s => P1 (fst s) /\ P2 (snd s)) (fun s => Q1 (fst s) /\ Q2 (snd s)).
Proof.
  intros A g h p q off P1 P2 Q1 Q2 H1 H2 H3 t [s1 s2] [K1 K2]. cbn [fst snd] in K1, K2. destruct (H1 t s1 K1) as (t1 & s1' & E & J).
  cbn [s_or srun]. unfold p_or. rewrite E. destruct (p inp off) as [x n|e c| |] eqn:Ep; try (eexists; eexists; split; [reflexivity|cbn [fst snd]; auto]; fail).
  destruct c; cbn [negb]; [eexists; eexists; split; [reflexivity|cbn [fst snd]; auto]|].
  destruct (H2 t1 s2 K2) as (t2 & s2' & E2 & J2). rewrite E2. eexists; eexists; split; [reflexivity|cbn [fst snd]; auto].
Qed.
(** Loops from an offset [lo] on. *)
Lemma step_loop : forall A (g : sobj A) p lo (P : st g -> Prop), (forall off, lo <= off -> step g p off P P) ->
  forall fuel rend cur items all t s, lo <= cur -> P s ->
    exists t' s', s_loop fuel g rend a inp cur items all t s = (rep_loop fuel p (None : option (parser N unit)) rend inp cur items all, (t', s')) /\ P s'.
Proof.
  intros A g p lo P H. induction fuel as [|fuel IH]; intros rend cur items all t s Hc Hs; cbn [s_loop rep_loop]; [eauto|].
  destruct (rep_stop rend (length items)); [eauto|]. destruct (H cur Hc t s Hs) as (t1 & s1 & E & K). rewrite E.
  destruct (p inp cur) as [v n|e c| |]; eauto. apply IH; [lia|exact K].
Qed.
Lemma step_loop_sep : forall A B (g : sobj A) (h : sobj B) p q lo (P1 : st g -> Prop) (P2 : st h -> Prop),
  (forall off, lo <= off -> step g p off P1 P1) -> (forall off, lo <= off -> step h q off P2 P2) ->
  forall fuel rend cur items all t s1 s2, lo <= cur -> P1 s1 -> P2 s2 ->
    exists t' s1' s2', s_loop_sep fuel g h rend a inp cur items all t s1 s2 = (rep_loop fuel p (Some q) rend inp cur items all, (t', (s1', s2'))) /\ P1 s1' /\ P2 s2'.
Proof.
  intros A B g h p q lo P1 P2 H1 H2. induction fuel as [|fuel IH]; intros rend cur items all t s1 s2 Hc K1 K2; cbn [s_loop_sep rep_loop]; [eauto 6|].
  destruct (rep_stop rend (length items)); [eauto 6|]. destruct (H2 cur Hc t s2 K2) as (t1 & s2' & E & J). rewrite E.
  destruct (q inp cur) as [v n|e c| |]; eauto 6. destruct (H1 (cur + n) ltac:(lia) t1 s1 K1) as (t2 & s1' & E2 & J2). rewrite E2.
  destruct (p inp (cur + n)) as [w m|e c| |]; eauto 6. apply IH; [lia|exact J2|exact J].
Qed.
Arguments step_loop : clear implicits.
Arguments step_loop_sep : clear implicits.
Lemma step_rest : forall A (g : sobj A) h p op lo (P1 : st g -> Prop) (P2 : st h -> Prop),
  (forall off, lo <= off -> step g p off P1 P1) -> (forall off, lo <= off -> step h op off P2 P2) ->
  forall fuel x off t s1 s2, lo <= off -> P1 s1 -> P2 s2 ->
    exists t' s1' s2', s_rest fuel g h x a inp off t s1 s2 = (rest_left1_fuel fuel p op x inp off, (t', (s1', s2'))) /\ P1 s1' /\ P2 s2'.
Proof.
  intros A g h p op lo P1 P2 H1 H2. induction fuel as [|fuel IH]; intros x off t s1 s2 Hc K1 K2; cbn [s_rest rest_left1_fuel]; [eauto 6|].
  destruct (H2 off Hc t s2 K2) as (t1 & s2' & E & J). rewrite E. unfold p_or.
  destruct (op inp off) as [f n|e c| |]; [|do 3 eexists; split; [reflexivity|split; assumption]..]. destruct (H1 (off + n) ltac:(lia) t1 s1 K1) as (t2 & s1' & E2 & J2). rewrite E2.
  destruct (p inp (off + n)) as [y m|e c| |]; [|do 3 eexists; split; [reflexivity|split; assumption]..].
  destruct (IH (f x y) (off + n + m) t2 s1' s2' ltac:(lia) J2 J) as (t3 & u1 & u2 & E3 & L1 & L2). rewrite E3.
  do 3 eexists; split; [reflexivity|split; assumption].
Qed.

Arguments step_rest : clear implicits.

(** *** Rules *)
Lemma free_prim : forall A (p : parser N A), Free (s_prim p) p.
Proof. intros A p off. apply step_prim. Qed.
Lemma free_lift : forall A B (f : outcome N A -> list N -> nat -> outcome N B) g p, Free g p -> Free (s_lift f g) (fun inp off => f (p inp off) inp off).
Proof. intros A B f g p H off. apply step_lift, H. Qed.
Lemma free_seq : forall A B C (k : A -> B -> C) g h p q, Free g p -> Free h q -> Free (s_seq k g h) (q_seq k p q).
Proof. intros A B C k g h p q H1 H2 off. eapply step_weaken; [apply step_seq; [apply H1|intros n x _; apply H2|auto]| |]; cbn; auto. Qed.
Lemma free_or : forall A (g h : sobj A) p q, Free g p -> Free h q -> Free (s_or g h) (p_or p q).
Proof. intros A g h p q H1 H2 off. eapply step_weaken; [apply step_or; [apply H1|apply H2|auto]| |]; cbn; auto. Qed.
Lemma free_rep : forall A (g : sobj A) r p, Free g p -> Free (s_rep g r) (p_repeat_sep p r (None : option (parser N unit))).
Proof.
  intros A g r p H off t. cbn [st s_rep]. intros s _. destruct (H off t s Logic.I) as (t1 & s1 & E & _). cbn [s_rep srun]. unfold p_repeat_sep, repeat_sep_fuel. rewrite E.
  destruct (p inp off) as [v n|e c| |]; [|eauto..].
  destruct (step_loop _ _ _ 0 _ (fun off _ => H off) (rep_fuel (rg_end r) inp off) (rg_end r) (off + n) [v] n t1 s1 (Nat.le_0_l _) Logic.I) as (t2 & s2 & E2 & _). rewrite E2. eauto.
Qed.
Lemma free_rep_sep : forall A B (g : sobj A) r (h : sobj B) p q, Free g p -> Free h q -> Free (s_rep_sep g r h) (p_repeat_sep p r (Some q)).
Proof.
  intros A B g r h p q H H' off t [s s2] _. destruct (H off t s Logic.I) as (t1 & s1 & E & _). cbn [s_rep_sep srun]. unfold p_repeat_sep, repeat_sep_fuel. rewrite E.
  destruct (p inp off) as [v n|e c| |]; [|eauto..].
  destruct (step_loop_sep _ _ _ _ _ _ 0 _ _ (fun off _ => H off) (fun off _ => H' off) (rep_fuel (rg_end r) inp off) (rg_end r) (off + n) [v] n t1 s1 s2 (Nat.le_0_l _) Logic.I Logic.I)
    as (t2 & u1 & u2 & E2 & _). rewrite E2. eauto.
Qed.
Lemma free_lazy : forall A (g : sobj A) p, Faith false g p -> Free (s_lazy g) p.
Proof.
  intros A g p (F & V & H0 & _ & H2 & _) off t s _. destruct (H2 off ltac:(discriminate) t (st0 g) H0) as (t1 & s1 & E & _). cbn [s_lazy srun]. rewrite E. eauto.
Qed.

Lemma faith_lift : forall nz A B (f : outcome N A -> list N -> nat -> outcome N B) g p, Faith nz g p -> Faith nz (s_lift f g) (fun inp off => f (p inp off) inp off).
Proof.
  intros nz A B f g p (F & V & H0 & H1 & H2 & H3 & H4). exists F, V. split; [exact H0|]. split; [exact H1|]. repeat split; intros; apply step_lift; auto.
Qed.
Lemma faith_seq : forall nz nz' A B C (k : A -> B -> C) g h p q, Faith nz g p -> Faith nz' h q -> (nz' = true -> nz = true \/ consumes 1 p) ->
  Faith nz (s_seq k g h) (q_seq k p q).
Proof.
  intros nz nz' A B C k g h p q (F & V & H0 & H1 & H2 & H3 & H4) (F' & V' & G0 & G1 & G2 & G3 & G4) Hz.
  exists (fun s => F (fst s) /\ F' (snd s)), (fun s => V (fst s) /\ V' (snd s)). split; [split; assumption|]. split; [intros s [? ?]; split; auto|]. split; [|split].
  - intros off Ho. apply step_seq; auto. intros n x E. apply G2. intros Hn. destruct (Hz Hn) as [Hz1|Hz1]; [specialize (Ho Hz1)|specialize (Hz1 _ _ _ _ E)]; lia.
  - intros off Ho. apply step_seq; auto. intros n x E. apply G3. lia.
  - intros off Ho. apply step_seq; auto. intros n x E. apply G4. lia.
Qed.
Lemma faith_or : forall nz A (g h : sobj A) p q, Faith nz g p -> Faith nz h q -> Faith nz (s_or g h) (p_or p q).
Proof.
  intros nz A g h p q (F & V & H0 & H1 & H2 & H3 & H4) (F' & V' & G0 & G1 & G2 & G3 & G4).
  exists (fun s => F (fst s) /\ F' (snd s)), (fun s => V (fst s) /\ V' (snd s)). split; [split; assumption|]. split; [intros s [? ?]; split; auto|].
  repeat split; intros; apply step_or; auto.
Qed.
(** A repeated object is run at 0 and then not at 1. *)
Lemma faith_rep : forall nz A (g : sobj A) r p, Faith nz g p -> (nz = true /\ consumes 1 p \/ consumes 2 p) ->
  Faith nz (s_rep g r) (p_repeat_sep p r (None : option (parser N unit))).
Proof.
  intros nz A g r p (F & V & H0 & H1 & H2 & H3 & H4) Hc. exists F, V. split; [exact H0|]. split; [exact H1|].
  assert (Far : forall (P : st g -> Prop), (forall off, 2 <= off -> step g p off P P) -> forall off, 2 <= off -> step (s_rep g r) (p_repeat_sep p r (None : option (parser N unit))) off P P).
  { intros P HP off Ho t. cbn [st s_rep]. intros s Hs. destruct (HP off Ho t s Hs) as (t1 & s1 & E & K). cbn [s_rep srun]. unfold p_repeat_sep, repeat_sep_fuel. rewrite E.
    destruct (p inp off) as [v n|e c| |]; [|eauto..].
    destruct (step_loop _ _ _ 2 _ HP (rep_fuel (rg_end r) inp off) (rg_end r) (off + n) [v] n t1 s1 ltac:(lia) K) as (t2 & s2 & E2 & K2). rewrite E2. eauto. }
  split; [|split; now apply Far]. intros off Ho t. cbn [st s_rep]. intros s Hs. destruct (H2 off Ho t s Hs) as (t1 & s1 & E & K). cbn [s_rep srun]. unfold p_repeat_sep, repeat_sep_fuel. rewrite E.
  destruct (p inp off) as [v n|e c| |] eqn:Ep; [|eauto..].
  assert (2 <= off + n) by (destruct Hc as [[Hn Hc]|Hc]; [specialize (Ho Hn)|]; apply Hc in Ep; lia).
  destruct (step_loop _ _ _ 2 _ H4 (rep_fuel (rg_end r) inp off) (rg_end r) (off + n) [v] n t1 s1 ltac:(assumption) K) as (t2 & s2 & E2 & K2). rewrite E2. eauto.
Qed.
Lemma faith_rep_sep : forall nz A B (g : sobj A) r (h : sobj B) p q, Faith nz g p -> Faith true h q -> consumes 1 p -> (nz = true \/ consumes 1 q) ->
  Faith nz (s_rep_sep g r h) (p_repeat_sep p r (Some q)).
Proof.
  intros nz A B g r h p q (F & V & H0 & H1 & H2 & H3 & H4) (F' & V' & G0 & G1 & G2 & G3 & G4) C1 C2.
  exists (fun s => F (fst s) /\ F' (snd s)), (fun s => V (fst s) /\ V' (snd s)). split; [split; assumption|]. split; [intros s [? ?]; split; auto|].
  assert (Far : forall (P : st g -> Prop) (P' : st h -> Prop), (forall off, 2 <= off -> step g p off P P) -> (forall off, 2 <= off -> step h q off P' P') ->
    forall off, 2 <= off -> step (s_rep_sep g r h) (p_repeat_sep p r (Some q)) off (fun s => P (fst s) /\ P' (snd s)) (fun s => P (fst s) /\ P' (snd s))).
  { intros P P' HP HP' off Ho t [s s2] [Hs Hs2]. cbn [fst snd] in Hs, Hs2. destruct (HP off Ho t s Hs) as (t1 & s1 & E & K). cbn [s_rep_sep srun].
    unfold p_repeat_sep, repeat_sep_fuel. rewrite E. destruct (p inp off) as [v n|e c| |]; [|eexists; eexists; split; [reflexivity|split; assumption]..].
    destruct (step_loop_sep _ _ _ _ _ _ 2 _ _ HP HP' (rep_fuel (rg_end r) inp off) (rg_end r) (off + n) [v] n t1 s1 s2 ltac:(lia) K Hs2) as (t2 & u1 & u2 & E2 & K2 & K3). rewrite E2.
    eexists; eexists; split; [reflexivity|split; assumption]. }
  split; [|split; now apply Far]. intros off Ho t [s s2] [Hs Hs2]. cbn [fst snd] in Hs, Hs2. destruct (H2 off Ho t s Hs) as (t1 & s1 & E & K). cbn [s_rep_sep srun].
  unfold p_repeat_sep, repeat_sep_fuel. rewrite E.
  destruct (p inp off) as [v n|e c| |] eqn:Ep; [|eexists; eexists; split; [reflexivity|split; [exact K|cbn [snd]; now apply G1]]..].
  pose proof (C1 _ _ _ _ Ep) as Hn. destruct (Nat.le_gt_cases 2 (off + n)) as [Hfar|Hnear].
  - destruct (step_loop_sep _ _ _ _ _ _ 2 _ _ H4 G3 (rep_fuel (rg_end r) inp off) (rg_end r) (off + n) [v] n t1 s1 s2 Hfar K Hs2) as (t2 & u1 & u2 & E2 & K2 & K3). rewrite E2.
    eexists; eexists; split; [reflexivity|split; [exact K2|cbn [snd]; now apply G1]].
  - destruct C2 as [C2|C2]; [specialize (Ho C2); lia|]. unfold rep_fuel. cbn [Nat.add]. generalize (length inp - off + bound_count (rg_end r)) as fuel. intros fuel.
    change (s_loop_sep (S (S fuel)) g h (rg_end r) a inp (off + n) [v] n t1 s1 s2) with
      (if rep_stop (rg_end r) (length [v]) then (RDone (rev [v]) n, (t1, (s1, s2))) else
        let '(o, (t', s2')) := srun h a inp (off + n) (t1, s2) in
        match o with
        | Success _ n' =>
            let '(o2, (t2, s1')) := srun g a inp (off + n + n') (t', s1) in
            match o2 with
            | Success v' m => s_loop_sep (S fuel) g h (rg_end r) a inp (off + n + n' + m) [v'; v] (n + n' + m) t2 s1' s2'
            | Failure _ _ => (RDone (rev [v]) (n + n'), (t2, (s1', s2')))
            | Panic => (RPanic, (t2, (s1', s2')))
            | Diverge => (RDiverge, (t2, (s1', s2')))
            end
        | Failure _ _ => (RDone (rev [v]) n, (t', (s1, s2')))
        | Panic => (RPanic, (t', (s1, s2')))
        | Diverge => (RDiverge, (t', (s1, s2')))
        end).
    change (rep_loop (S (S fuel)) p (Some q) (rg_end r) inp (off + n) [v] n) with
      (if rep_stop (rg_end r) (length [v]) then RDone (rev [v]) n else
        match q inp (off + n) with
        | Success _ n' =>
            match p inp (off + n + n') with
            | Success v' m => rep_loop (S fuel) p (Some q) (rg_end r) inp (off + n + n' + m) [v'; v] (n + n' + m)
            | Failure _ _ => RDone (rev [v]) (n + n')
            | Panic => RPanic
            | Diverge => RDiverge
            end
        | Failure _ _ => RDone (rev [v]) n
        | Panic => RPanic
        | Diverge => RDiverge
        end).
    destruct (rep_stop (rg_end r) (length [v])); [eexists; eexists; split; [reflexivity|split; [exact K|cbn [snd]; now apply G1]]|].
    destruct (G2 (off + n) ltac:(lia) t1 s2 Hs2) as (t2 & u2 & E2 & K2). rewrite E2.
    destruct (q inp (off + n)) as [w m|e c| |] eqn:Eq; [|eexists; eexists; split; [reflexivity|split; [exact K|exact K2]]..].
    pose proof (C2 _ _ _ _ Eq) as Hm. destruct (H4 (off + n + m) ltac:(lia) t2 s1 K) as (t3 & u1 & E3 & K3). rewrite E3.
    destruct (p inp (off + n + m)) as [v' m'|e c| |]; [|eexists; eexists; split; [reflexivity|split; [exact K3|exact K2]]..].
    destruct (step_loop_sep _ _ _ _ _ _ 2 _ _ H4 G4 (S fuel) (rg_end r) (off + n + m + m') [v'; v] (n + m + m') t3 u1 u2 ltac:(lia) K3 K2) as (t4 & w1 & w2 & E4 & K4 & K5). rewrite E4.
    eexists; eexists; split; [reflexivity|split; [exact K4|exact K5]].
Qed.
Lemma faith_chain : forall nz A (g : sobj A) h p op, Faith nz g p -> Faith true h op -> consumes 1 p -> consumes 1 op ->
  Faith nz (s_chain_left1 g h) (p_chain_left1 p op).
Proof.
  intros nz A g h p op (F & V & H0 & H1 & H2 & H3 & H4) (F' & V' & G0 & G1 & G2 & G3 & G4) C1 C2.
  exists (fun s => F (fst s) /\ F' (snd s)), (fun s => V (fst s) /\ V' (snd s)). split; [split; assumption|]. split; [intros s [? ?]; split; auto|].
  assert (Far : forall (P : st g -> Prop) (P' : st h -> Prop), (forall off, 2 <= off -> step g p off P P) -> (forall off, 2 <= off -> step h op off P' P') ->
    forall off, 2 <= off -> step (s_chain_left1 g h) (p_chain_left1 p op) off (fun s => P (fst s) /\ P' (snd s)) (fun s => P (fst s) /\ P' (snd s))).
  { intros P P' HP HP' off Ho t [s s2] [Hs Hs2]. cbn [fst snd] in Hs, Hs2. destruct (HP off Ho t s Hs) as (t1 & s1 & E & K). cbn [s_chain_left1 srun].
    unfold p_chain_left1, p_flat_map, p_rest_left1. rewrite E. destruct (p inp off) as [v n|e c| |]; [|eexists; eexists; split; [reflexivity|split; assumption]..].
    destruct (step_rest _ _ _ _ _ 2 _ _ HP HP' (chain_fuel inp (off + n)) v (off + n) t1 s1 s2 ltac:(lia) K Hs2) as (t2 & u1 & u2 & E2 & K2 & K3). rewrite E2.
    eexists; eexists; split; [reflexivity|split; assumption]. }
  split; [|split; now apply Far]. intros off Ho t [s s2] [Hs Hs2]. cbn [fst snd] in Hs, Hs2. destruct (H2 off Ho t s Hs) as (t1 & s1 & E & K). cbn [s_chain_left1 srun].
  unfold p_chain_left1, p_flat_map, p_rest_left1. rewrite E.
  destruct (p inp off) as [v n|e c| |] eqn:Ep; [|eexists; eexists; split; [reflexivity|split; [exact K|cbn [snd]; now apply G1]]..].
  pose proof (C1 _ _ _ _ Ep) as Hn. destruct (Nat.le_gt_cases 2 (off + n)) as [Hfar|Hnear].
  - destruct (step_rest _ _ _ _ _ 2 _ _ H4 G3 (chain_fuel inp (off + n)) v (off + n) t1 s1 s2 Hfar K Hs2) as (t2 & u1 & u2 & E2 & K2 & K3). rewrite E2.
    eexists; eexists; split; [reflexivity|split; [exact K2|cbn [snd]; now apply G1]].
  - unfold chain_fuel. generalize (S (length inp - (off + n))) as fuel. intros fuel. cbn [s_rest rest_left1_fuel].
    destruct (G2 (off + n) ltac:(lia) t1 s2 Hs2) as (t2 & u2 & E2 & K2). rewrite E2. unfold p_or.
    destruct (op inp (off + n)) as [f m|e c| |] eqn:Eq; [|eexists; eexists; split; [reflexivity|split; [exact K|exact K2]]..].
    pose proof (C2 _ _ _ _ Eq) as Hm. destruct (H4 (off + n + m) ltac:(lia) t2 s1 K) as (t3 & u1 & E3 & K3). rewrite E3.
    destruct (p inp (off + n + m)) as [y m'|e c| |]; [|eexists; eexists; split; [reflexivity|split; [exact K3|exact K2]]..].
    destruct (step_rest _ _ _ _ _ 2 _ _ H4 G4 fuel (f v y) (off + n + m + m') t3 u1 u2 ltac:(lia) K3 K2) as (t4 & w1 & w2 & E4 & K4 & K5). rewrite E4.
    eexists; eexists; split; [reflexivity|split; [exact K4|exact K5]].
Qed.
(** The key of a cached object separates all offsets but 0 and 1. *)
Lemma m_find_in : forall A (m : list (nat * nat * outcome N A)) k l o, m_find m k l = Some o -> In (k, l, o) m.
Proof.
  intros A m k l o. induction m as [|[[k' l'] o'] m IH]; cbn [m_find]; [discriminate|]. destruct (Nat.eqb_spec k' k) as [->|]; [destruct (Nat.eqb_spec l' l) as [->|]|]; cbn [andb].
  - intros E. inversion E. now left.
  - intros E. right. now apply IH.
  - intros E. right. now apply IH.
Qed.
Lemma faith_cache : forall nz A (g : sobj A) p, Faith nz g p -> Faith nz (s_cache g) p.
Proof.
  intros nz A g p (F & V & H0 & H1 & H2 & H3 & H4).
  exists (fun s => (forall k l o, In (k, l, o) (fst s) -> 1 <= l /\ o = p inp (S l)) /\ F (snd s)),
    (fun s => (exists z, forall k l o, In (k, l, o) (fst s) -> 1 <= l /\ o = p inp (S l) \/ l = 0 /\ o = p inp z) /\ V (snd s)).
  assert (L : forall off, 2 <= off -> 1 <= last_offset_or0 off /\ S (last_offset_or0 off) = off).
  { intros off Ho. unfold last_offset_or0. destruct (Nat.ltb_spec 0 off); lia. }
  split; [split; [intros k l o []|exact H0]|]. split; [|split; [|split]].
  - intros [m s] [K J]. split; [exists 0; intros k l o Hi; left; now apply (K k)|now apply H1].
  - intros off Ho t [m s] [K J]. cbn [fst snd] in K, J. cbn [s_cache srun]. destruct (m_find m (a t) (last_offset_or0 off)) as [o|] eqn:Ef.
    + apply m_find_in, K in Ef. destruct Ef as [E1 ->]. unfold last_offset_or0 in *. destruct (Nat.ltb_spec 0 off); [|lia]. replace (S (off - 1)) with off by lia.
      eexists; eexists; split; [reflexivity|]. split; [exists 0; intros k l o Hi; left; now apply (K k)|now apply H1].
    + destruct (H2 off Ho (S t) s J) as (t' & s' & E & K2). rewrite E. eexists; eexists; split; [reflexivity|]. split; [|exact K2].
      exists off. cbn [fst]. intros k l o [Hi|Hi]; [|left; now apply K in Hi]. injection Hi as _ <- <-. unfold last_offset_or0.
      destruct (Nat.ltb_spec 0 off); [|right; now split]. destruct (Nat.eq_dec off 1) as [->|]; [right; now split|left]. split; [lia|]. f_equal. lia.
  - intros off Ho t [m s] [K J]. cbn [fst snd] in K, J. destruct (L off Ho) as [L1 L2]. cbn [s_cache srun]. destruct (m_find m (a t) (last_offset_or0 off)) as [o|] eqn:Ef.
    + apply m_find_in, K in Ef. destruct Ef as [E1 ->]. rewrite L2. eexists; eexists; split; [reflexivity|]. now split.
    + destruct (H3 off Ho (S t) s J) as (t' & s' & E & K2). rewrite E. eexists; eexists; split; [reflexivity|]. split; [|exact K2].
      cbn [fst]. intros k l o [Hi|Hi]; [|now apply K in Hi]. injection Hi as _ <- <-. split; [exact L1|now rewrite L2].
  - intros off Ho t [m s] [[z K] J]. cbn [fst snd] in K, J. destruct (L off Ho) as [L1 L2]. cbn [s_cache srun]. destruct (m_find m (a t) (last_offset_or0 off)) as [o|] eqn:Ef.
    + apply m_find_in, K in Ef. destruct Ef as [[E1 ->]|[E1 _]]; [|lia]. rewrite L2. eexists; eexists; split; [reflexivity|]. split; [now exists z|exact J].
    + destruct (H4 off Ho (S t) s J) as (t' & s' & E & K2). rewrite E. eexists; eexists; split; [reflexivity|]. split; [|exact K2].
      exists z. cbn [fst]. intros k l o [Hi|Hi]; [|now apply K in Hi]. injection Hi as _ <- <-. left. split; [exact L1|now rewrite L2].
Qed.
End Faith.

(** ** The rules for each combinator *)
Section Rules.
Variable a : nat -> nat.
Variable inp : list N.
Notation Free := (Free a inp).
Notation Faith := (Faith a inp).
Lemma free_map : forall A B (g : sobj A) p (f : A -> B), Free g p -> Free (s_map g f) (p_map p f).
Proof. intros A B g p f H. exact (free_lift (fun o _ _ => p_map (fun _ _ => o) f [] 0) H). Qed.
Lemma free_map_panic : forall A B (g : sobj A) p (f : A -> option B), Free g p -> Free (s_map_panic g f) (p_map_panic p f).
Proof. intros A B g p f H. exact (free_lift (fun o _ _ => p_map_panic (fun _ _ => o) f [] 0) H). Qed.
Lemma free_attempt : forall A (g : sobj A) p, Free g p -> Free (s_attempt g) (p_attempt p).
Proof. intros A g p H. exact (free_lift (fun o _ _ => with_uncommitted o) H). Qed.
Lemma free_name : forall A (g : sobj A) p n, Free g p -> Free (s_name g n) (p_name p n).
Proof. intros A g p n H. exact (free_lift (fun o inp off => p_name (fun _ _ => o) n inp off) H). Qed.
Lemma free_and : forall A B (g : sobj A) (h : sobj B) p q, Free g p -> Free h q -> Free (s_and g h) (p_and p q).
Proof. intros A B g h p q H1 H2. exact (free_seq (k := pair) H1 H2). Qed.
Lemma free_skip_left : forall A B (g : sobj A) (h : sobj B) p q, Free g p -> Free h q -> Free (s_skip_left g h) (p_skip_left p q).
Proof. intros A B g h p q H1 H2. exact (free_seq (k := (fun _ y => y)) H1 H2). Qed.
Lemma free_skip_right : forall A B (g : sobj A) (h : sobj B) p q, Free g p -> Free h q -> Free (s_skip_right g h) (p_skip_right p q).
Proof. intros A B g h p q H1 H2. exact (free_seq (k := (fun x _ => x)) H1 H2). Qed.
Lemma free_surround : forall A B C (g : sobj A) (h : sobj B) (k : sobj C) p q r, Free g p -> Free h q -> Free k r -> Free (s_surround g h k) (p_surround p q r).
Proof. intros A B C g h k p q r H1 H2 H3. apply free_skip_left; [exact H1|now apply free_skip_right]. Qed.
Lemma free_many0 : forall A (g : sobj A) p, Free g p -> Free (s_many0 g) (p_many0 p).
Proof. intros A g p H. now apply free_rep. Qed.
Lemma free_many0_sep : forall A B (g : sobj A) (h : sobj B) p q, Free g p -> Free h q -> Free (s_many0_sep g h) (p_many0_sep p q).
Proof. intros A B g h p q H1 H2. now apply free_rep_sep. Qed.
Lemma free_many1_sep : forall A B (g : sobj A) (h : sobj B) p q, Free g p -> Free h q -> Free (s_many1_sep g h) (p_many1_sep p q).
Proof. intros A B g h p q H1 H2. now apply free_rep_sep. Qed.

Lemma faith_prim : forall nz A (p : parser N A), Faith nz (s_prim p) p.
Proof. intros nz A p. apply free_faith, free_prim. Qed.
Lemma faith_lazy : forall nz A (g : sobj A) p, Faith false g p -> Faith nz (s_lazy g) (p_lazy (fun _ => p)).
Proof. intros nz A g p H. apply free_faith. exact (free_lazy H). Qed.
Lemma faith_map : forall nz A B (g : sobj A) p (f : A -> B), Faith nz g p -> Faith nz (s_map g f) (p_map p f).
Proof. intros nz A B g p f H. exact (faith_lift (fun o _ _ => p_map (fun _ _ => o) f [] 0) H). Qed.
Lemma faith_map_panic : forall nz A B (g : sobj A) p (f : A -> option B), Faith nz g p -> Faith nz (s_map_panic g f) (p_map_panic p f).
Proof. intros nz A B g p f H. exact (faith_lift (fun o _ _ => p_map_panic (fun _ _ => o) f [] 0) H). Qed.
Lemma faith_attempt : forall nz A (g : sobj A) p, Faith nz g p -> Faith nz (s_attempt g) (p_attempt p).
Proof. intros nz A g p H. exact (faith_lift (fun o _ _ => with_uncommitted o) H). Qed.
Lemma faith_name : forall nz A (g : sobj A) p n, Faith nz g p -> Faith nz (s_name g n) (p_name p n).
Proof. intros nz A g p n H. exact (faith_lift (fun o inp off => p_name (fun _ _ => o) n inp off) H). Qed.
Lemma faith_and : forall nz A B (g : sobj A) (h : sobj B) p q, Faith nz g p -> Faith nz h q -> Faith nz (s_and g h) (p_and p q).
Proof. intros nz A B g h p q H1 H2. exact (faith_seq pair H1 H2 (fun e => or_introl e)). Qed.
Lemma faith_skip_left : forall nz A B (g : sobj A) (h : sobj B) p q, Faith nz g p -> Faith nz h q -> Faith nz (s_skip_left g h) (p_skip_left p q).
Proof. intros nz A B g h p q H1 H2. exact (faith_seq (fun _ y => y) H1 H2 (fun e => or_introl e)). Qed.
Lemma faith_skip_right : forall nz A B (g : sobj A) (h : sobj B) p q, Faith nz g p -> Faith nz h q -> Faith nz (s_skip_right g h) (p_skip_right p q).
Proof. intros nz A B g h p q H1 H2. exact (faith_seq (fun x _ => x) H1 H2 (fun e => or_introl e)). Qed.
Lemma faith_surround : forall nz A B C (g : sobj A) (h : sobj B) (k : sobj C) p q r, Faith nz g p -> Faith nz h q -> Faith nz k r ->
  Faith nz (s_surround g h k) (p_surround p q r).
Proof. intros nz A B C g h k p q r H1 H2 H3. apply faith_skip_left; [exact H1|now apply faith_skip_right]. Qed.
(** What follows a consuming object is not run at 0. *)
Lemma faith_skip_left1 : forall A B (g : sobj A) (h : sobj B) p q, Faith false g p -> consumes 1 p -> Faith true h q -> Faith false (s_skip_left g h) (p_skip_left p q).
Proof. intros A B g h p q H1 C H2. exact (faith_seq (fun _ y => y) H1 H2 (fun _ => or_intror C)). Qed.
Lemma faith_opt : forall nz A (g : sobj A) p, Faith nz g p -> Faith nz (s_opt g) (p_opt p).
Proof. intros nz A g p H. apply faith_or; [now apply faith_map, faith_attempt|apply faith_prim]. Qed.
End Rules.

(** ** Least consumption *)
Section Consumes.
Context {A B : Type}.
Lemma c_weaken : forall k k' (p : parser N A), consumes k' p -> k <= k' -> consumes k p.
Proof. intros k k' p H L inp off v n E. apply H in E. lia. Qed.
Lemma c_map : forall C k (p : parser N A) (f : A -> C), consumes k p -> consumes k (p_map p f).
Proof. intros C k p f H inp off v n E. unfold p_map in E. destruct (p inp off) as [x m| | |] eqn:Ep; inversion E; subst. now apply H in Ep. Qed.
Lemma c_map_panic : forall C k (p : parser N A) (f : A -> option C), consumes k p -> consumes k (p_map_panic p f).
Proof. intros C k p f H inp off v n E. unfold p_map_panic in E. destruct (p inp off) as [x m| | |] eqn:Ep; try discriminate. destruct (f x); inversion E; subst. now apply H in Ep. Qed.
Lemma c_map_res : forall C D k (p : parser N A) (f : A -> C + D), consumes k p -> consumes k (p_map_res p f).
Proof.
  intros C D k p f H inp off v n E. unfold p_map_res in E. destruct (p inp off) as [x m| | |] eqn:Ep; try discriminate. destruct (f x); [inversion E; subst; now apply H in Ep|].
  destruct (ps_input inp off); discriminate.
Qed.
Lemma c_collect : forall k (p : parser N A), consumes k p -> consumes k (p_collect p).
Proof.
  intros k p H inp off v n E. unfold p_collect in E. destruct (p inp off) as [x m| | |] eqn:Ep; try discriminate. destruct (slice_with_len inp off m); inversion E; subst. now apply H in Ep.
Qed.
Lemma c_attempt : forall k (p : parser N A), consumes k p -> consumes k (p_attempt p).
Proof. intros k p H inp off v n E. unfold p_attempt, with_uncommitted in E. destruct (p inp off) as [x m|e c| |] eqn:Ep; try discriminate; [inversion E; subst; now apply H in Ep|destruct c; discriminate]. Qed.
Lemma c_name : forall k (p : parser N A) s, consumes k p -> consumes k (p_name p s).
Proof. intros k p s H inp off v n E. unfold p_name in E. destruct (p inp off) as [x m|e c| |] eqn:Ep; try discriminate; [inversion E; subst; now apply H in Ep|destruct (is_custom e); discriminate]. Qed.
Lemma c_lazy : forall k (p : parser N A), consumes k p -> consumes k (p_lazy (fun _ => p)).
Proof. intros k p H. exact H. Qed.
Lemma c_or : forall k (p q : parser N A), consumes k p -> consumes k q -> consumes k (p_or p q).
Proof.
  intros k p q H1 H2 inp off v n E. unfold p_or in E. destruct (p inp off) as [x m|e c| |] eqn:Ep; try discriminate; [inversion E; subst; now apply H1 in Ep|].
  destruct c; cbn [negb] in E; [discriminate|now apply H2 in E].
Qed.
Lemma c_seq : forall C (f : A -> B -> C) i j k (p : parser N A) (q : parser N B), consumes i p -> consumes j q -> k <= i + j -> consumes k (q_seq f p q).
Proof.
  intros C f i j k p q H1 H2 L inp off v n E. unfold q_seq in E. destruct (p inp off) as [x m|e c| |] eqn:Ep; try discriminate.
  destruct (q inp (off + m)) as [y m'|e c| |] eqn:Eq; inversion E; subst. apply H1 in Ep. apply H2 in Eq. lia.
Qed.
Lemma c_and : forall i j k (p : parser N A) (q : parser N B), consumes i p -> consumes j q -> k <= i + j -> consumes k (p_and p q).
Proof. intros i j k p q H1 H2 L. exact (c_seq pair H1 H2 L). Qed.
Lemma c_skip_left : forall i j k (p : parser N A) (q : parser N B), consumes i p -> consumes j q -> k <= i + j -> consumes k (p_skip_left p q).
Proof. intros i j k p q H1 H2 L. exact (c_seq (fun _ y => y) H1 H2 L). Qed.
Lemma c_skip_right : forall i j k (p : parser N A) (q : parser N B), consumes i p -> consumes j q -> k <= i + j -> consumes k (p_skip_right p q).
Proof. intros i j k p q H1 H2 L. exact (c_seq (fun x _ => x) H1 H2 L). Qed.
Lemma c_zero : forall (p : parser N A), consumes 0 p.
Proof. intros p inp off v n _. lia. Qed.
Lemma c_diverge : forall k, consumes k (@p_diverge N A).
Proof. intros k inp off v n E. discriminate. Qed.
Lemma c_chain : forall k (p : parser N A) op, consumes k p -> consumes k (p_chain_left1 p op).
Proof.
  intros k p op H inp off v n E. unfold p_chain_left1, p_flat_map in E. destruct (p inp off) as [x m|e c| |] eqn:Ep; try discriminate. apply H in Ep.
  destruct (p_rest_left1 p op x inp (off + m)); inversion E; subst. lia.
Qed.
End Consumes.
Lemma c_surround : forall A B C i j k l (p : parser N A) (q : parser N B) (r : parser N C), consumes i p -> consumes j q -> consumes k r -> l <= i + (j + k) ->
  consumes l (p_surround p q r).
Proof. intros A B C i j k l p q r H1 H2 H3 L. eapply c_skip_left; [exact H1|eapply c_skip_right; [exact H2|exact H3|reflexivity]|exact L]. Qed.
Lemma c_pred : forall f, consumes 1 (p_elm_pred_ref f : parser N N).
Proof. intros f inp off v n E. unfold p_elm_pred_ref in E. destruct (ps_input inp off) as [[|x s]|]; try discriminate. destruct (f x); inversion E. lia. Qed.
Lemma c_ref_of : forall f, consumes 1 (p_elm_ref_of f : parser N N).
Proof. intros f inp off v n E. unfold p_elm_ref_of in E. destruct (ps_input inp off) as [[|x s]|]; try discriminate. destruct (f x); inversion E. lia. Qed.
Lemma c_elm : forall c, consumes 1 (p_elm c).
Proof. intros c. apply c_map, c_pred. Qed.
Lemma c_elm_ref : forall c, consumes 1 (p_elm_ref c).
Proof. intros c. apply c_pred. Qed.
Lemma c_elm_pred : forall f, consumes 1 (p_elm_pred f : parser N N).
Proof. intros f. apply c_map, c_pred. Qed.
Lemma c_elm_of : forall l, consumes 1 (p_elm_of l).
Proof. intros l. apply c_map, c_ref_of. Qed.
Lemma c_elm_in : forall x y, consumes 1 (p_elm_in x y).
Proof. intros x y. apply c_map, c_ref_of. Qed.
Lemma tag_loop_len : forall whole input off s rest i v n, tag_loop N.eqb whole input off s rest i = Success v n -> n = i + length s.
Proof.
  intros whole input off s. induction s as [|c s IH]; intros rest i v n E; cbn [tag_loop] in E; [inversion E; cbn; lia|].
  destruct rest as [|x rest]; [discriminate|]. destruct (N.eqb c x); cbn [negb] in E; [|discriminate]. apply IH in E. cbn [length]. lia.
Qed.
Lemma c_tag : forall k s, k <= length s -> consumes k (p_tag s).
Proof. intros k s L inp off v n E. unfold p_tag, p_tag_by in E. destruct (ps_input inp off); [|discriminate]. apply tag_loop_len in E. lia. Qed.
