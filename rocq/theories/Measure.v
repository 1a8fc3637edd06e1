(** How deep the calls of parser methods nest, and how many there are.  A parser of the crate is a closure that calls the closures it is built
    from (core/parser.rs 7-10); here a run gives, beside its outcome, the largest number of closures active at one time ([hgt]: every one has a
    frame on the stack) and the number of closures called ([cnt]).  The combinators mirror those of Comb.v, one closure for each Parser::new of
    the source; [erases] says that the outcome is the one of Comb.v. *)
From Verif Require Import Base Core Comb.
Set Implicit Arguments.
Local Open Scope string_scope.
Local Open Scope nat_scope.
Local Open Scope list_scope.

Record meas := Meas { hgt : nat; cnt : nat }.
(** One closure around a run. *)
Definition up (m : meas) : meas := Meas (S (hgt m)) (S (cnt m)).
(** One run after the other, called from the same closure. *)
Definition both (m m' : meas) : meas := Meas (Nat.max (hgt m) (hgt m')) (cnt m + cnt m').
(** core/parser.rs 7-10, internal/parser_impl/parser_runner_impl.rs 16-18 *)
Definition mparser (A : Type) := list N -> nat -> outcome N A * meas.
Definition erases {A} (g : mparser A) (p : parser N A) : Prop := forall inp off, fst (g inp off) = p inp off.

(** A closure that calls no other. *)
Definition m_leaf {A} (p : parser N A) : mparser A := fun inp off => (p inp off, Meas 1 1).
(** A closure that calls one other at its own position: map, filter (internal/parsers_impl.rs 67-88, 108-120), map_res
    (conversion_parsers_impl.rs 8-30), collect, discard, attempt, lazy, name. *)
Definition m_one {A B} (k : parser N A -> parser N B) (g : mparser A) : mparser B := fun inp off =>
  let '(o, m) := g inp off in (k (fun _ _ => o) inp off, up m).
(** A closure that calls a second one where the first ended: and_then (operator_parsers_impl.rs 54-76), skip_left, skip_right
    (skip_parser_impl.rs 21-69). *)
Definition m_two {A B C} (k : parser N A -> parser N B -> parser N C) (g : mparser A) (h : mparser B) : mparser C := fun inp off =>
  let '(o, m) := g inp off in
  match o with
  | Success _ n => let '(o2, m2) := h inp (off + n) in (k (fun _ _ => o) (fun _ _ => o2) inp off, up (both m m2))
  | _ => (k (fun _ _ => o) p_diverge inp off, up m)
  end.
(** internal/parsers_impl.rs 108-120 and 67-88, conversion_parsers_impl.rs 8-30, collect_parsers_impl.rs 7-21, discard_parsers_impl.rs 8-19,
    operator_parsers_impl.rs 79-83, lazy_parsers_impl.rs 8-16 *)
Definition m_map {A B} (g : mparser A) (f : A -> B) : mparser B := m_one (fun p => p_map p f) g.
(** internal/parsers_impl.rs 108-118: map with a wrapper the model leaves out: the closure is called all the same. *)
Definition m_id {A} (g : mparser A) : mparser A := m_map g (fun x => x).
Definition m_map_panic {A B} (g : mparser A) (f : A -> option B) : mparser B := m_one (fun p => p_map_panic p f) g.
Definition m_filter_not {A} (g : mparser A) (f : A -> bool) : mparser A := m_one (fun p => p_filter_not p f) g.
Definition m_map_res {A B E} (g : mparser A) (f : A -> B + E) : mparser B := m_one (fun p => p_map_res p f) g.
Definition m_collect {A} (g : mparser A) : mparser (list N) := m_one (@p_collect N A) g.
Definition m_discard {A} (g : mparser A) : mparser unit := m_one (@p_discard N A) g.
Definition m_attempt {A} (g : mparser A) : mparser A := m_one (@p_attempt N A) g.
Definition m_lazy {A} (g : mparser A) : mparser A := m_one (fun p => p_lazy (fun _ => p)) g.
(** operator_parsers_impl.rs 54-76, skip_parser_impl.rs 21-81 *)
Definition m_and {A B} (g : mparser A) (h : mparser B) : mparser (A * B) := m_two (@p_and N A B) g h.
Definition m_skip_left {A B} (g : mparser A) (h : mparser B) : mparser B := m_two (@p_skip_left N A B) g h.
Definition m_skip_right {A B} (g : mparser A) (h : mparser B) : mparser A := m_two (@p_skip_right N A B) g h.
Definition m_surround {A B C} (g : mparser A) (h : mparser B) (k : mparser C) : mparser B := m_skip_left g (m_skip_right h k).
(** operator_parsers_impl.rs 39-51 *)
Definition m_or {A} (g h : mparser A) : mparser A := fun inp off =>
  let '(o, m) := g inp off in
  match o with
  | Failure _ false => let '(o2, m2) := h inp off in (o2, up (both m m2))
  | _ => (o, up m)
  end.
(** extension/parsers/operator_parsers.rs 14-18 *)
Definition m_opt {A} (g : mparser A) : mparser (option A) := m_or (m_map (m_attempt g) (@Some A)) (m_leaf (p_successful None)).

(** repeat_parsers_impl.rs 81-111: the loop calls its parsers from the one closure of the repetition; [m] measures the calls before. *)
Fixpoint m_loop {A B} (fuel : nat) (g : mparser A) (sep : option (mparser B)) (rend : bound) (inp : list N) (cur : nat) (items : list A) (all : nat)
  (m : meas) : rep_result A * meas :=
  match fuel with
  | 0 => (RDiverge, m)
  | S fuel' =>
      if rep_stop rend (length items) then (RDone (rev items) all, m)
      else
        let elem_step := fun cur all m =>
          let '(o, m1) := g inp cur in
          match o with
          | Success v n => m_loop fuel' g sep rend inp (cur + n) (v :: items) (all + n) (both m m1)
          | Failure _ _ => (RDone (rev items) all, both m m1)
          | Panic => (RPanic, both m m1)
          | Diverge => (RDiverge, both m m1)
          end in
        match sep with
        | Some h =>
            let '(o, m1) := h inp cur in
            match o with
            | Success _ n => elem_step (cur + n) (all + n) (both m m1)
            | Failure _ _ => (RDone (rev items) all, both m m1)
            | Panic => (RPanic, both m m1)
            | Diverge => (RDiverge, both m m1)
            end
        | None => elem_step cur all m
        end
  end.
(** repeat_parsers_impl.rs 60-132 *)
Definition m_rep {A B} (g : mparser A) (r : range) (sep : option (mparser B)) : mparser (list A) := fun inp off =>
  let '(o, m) := g inp off in
  let '(d, m') := match o with
    | Success v n => m_loop (rep_fuel (rg_end r) inp off) g sep (rg_end r) inp (off + n) [v] n m
    | Failure _ _ => (RDone [] 0, m)
    | Panic => (RPanic, m)
    | Diverge => (RDiverge, m)
    end in
  (rep_finish (rg_start r) inp off d, up m').
(** repeat_parsers_impl.rs 18-57 *)
Definition m_many0 {A} (g : mparser A) : mparser (list A) := m_rep g (rg_from 0) (None : option (mparser unit)).
Definition m_many1 {A} (g : mparser A) : mparser (list A) := m_rep g (rg_from 1) (None : option (mparser unit)).
Definition m_count {A} (g : mparser A) (n : nat) : mparser (list A) := m_rep g (rg_in n n) (None : option (mparser unit)).
Definition m_many0_sep {A B} (g : mparser A) (h : mparser B) : mparser (list A) := m_rep g (rg_from 0) (Some h).

(** operator_parsers_impl.rs 117-153: the closure of [or] calls the one inside, which calls the operator, the operand and rest_left1 itself. *)
Fixpoint m_rest {A} (fuel : nat) (g : mparser A) (h : mparser (A -> A -> A)) (x : A) (inp : list N) (off : nat) : outcome N A * meas :=
  match fuel with
  | 0 => (Diverge, Meas 0 0)
  | S fuel' =>
      m_or (fun inp off =>
        let '(o, m) := h inp off in
        match o with
        | Success f n1 =>
            let '(o2, m2) := g inp (off + n1) in
            match o2 with
            | Success y n2 =>
                let '(r, m3) := m_rest fuel' g h (f x y) inp (off + n1 + n2) in
                (advance_success n1 (add_commit (negb (n1 =? 0)) (advance_success n2 r)), up (both (both m m2) m3))
            | Failure e c => (advance_success n1 (add_commit (negb (n1 =? 0)) (Failure e c)), up (both m m2))
            | Panic => (Panic, up (both m m2))
            | Diverge => (Diverge, up (both m m2))
            end
        | Failure e c => (Failure e c, up m)
        | Panic => (Panic, up m)
        | Diverge => (Diverge, up m)
        end) (m_leaf (p_successful x)) inp off
  end.
(** operator_parsers_impl.rs 94-99, internal/parsers_impl.rs 90-106 *)
Definition m_chain_left1 {A} (g : mparser A) (h : mparser (A -> A -> A)) : mparser A := fun inp off =>
  let '(o, m) := g inp off in
  match o with
  | Success x n => let '(r, m2) := m_rest (chain_fuel inp (off + n)) g h x inp (off + n) in (advance_success n (add_commit (negb (n =? 0)) r), up (both m m2))
  | Failure e c => (Failure e c, up m)
  | Panic => (Panic, up m)
  | Diverge => (Diverge, up m)
  end.

(** ** The outcomes are those of Comb.v *)
Lemma er_leaf : forall A (p : parser N A), erases (m_leaf p) p.
Proof. intros A p inp off. reflexivity. Qed.
Lemma er_one : forall A B (k : parser N A -> parser N B) g p, (forall p inp off, k p inp off = k (fun _ _ => p inp off) inp off) ->
  erases g p -> erases (m_one k g) (k p).
Proof. intros A B k g p K H inp off. unfold m_one. specialize (H inp off). destruct (g inp off) as [o m]. cbn [fst] in *. subst o. symmetry. apply K. Qed.
Lemma er_map : forall A B g p (f : A -> B), erases g p -> erases (m_map g f) (p_map p f).
Proof. intros A B g p f H. now apply (@er_one A B (fun p => p_map p f)). Qed.
Lemma er_id : forall A (g : mparser A) p, erases g p -> erases (m_id g) p.
Proof. intros A g p H inp off. unfold m_id. rewrite (er_map (fun x => x) H). unfold p_map. now destruct (p inp off). Qed.
Lemma er_map_panic : forall A B g p (f : A -> option B), erases g p -> erases (m_map_panic g f) (p_map_panic p f).
Proof. intros A B g p f H. now apply (@er_one A B (fun p => p_map_panic p f)). Qed.
Lemma er_filter_not : forall A g p (f : A -> bool), erases g p -> erases (m_filter_not g f) (p_filter_not p f).
Proof. intros A g p f H. now apply (@er_one A A (fun p => p_filter_not p f)). Qed.
Lemma er_map_res : forall A B E g p (f : A -> B + E), erases g p -> erases (m_map_res g f) (p_map_res p f).
Proof. intros A B E g p f H. now apply (@er_one A B (fun p => p_map_res p f)). Qed.
Lemma er_collect : forall A g (p : parser N A), erases g p -> erases (m_collect g) (p_collect p).
Proof. intros A g p H. now apply (@er_one A (list N) (@p_collect N A)). Qed.
Lemma er_discard : forall A g (p : parser N A), erases g p -> erases (m_discard g) (p_discard p).
Proof. intros A g p H. now apply (@er_one A unit (@p_discard N A)). Qed.
Lemma er_attempt : forall A g (p : parser N A), erases g p -> erases (m_attempt g) (p_attempt p).
Proof. intros A g p H. now apply (@er_one A A (@p_attempt N A)). Qed.
Lemma er_lazy : forall A g (p : parser N A), erases g p -> erases (m_lazy g) (p_lazy (fun _ => p)).
Proof. intros A g p H. now apply (@er_one A A (fun p => p_lazy (fun _ => p))). Qed.
Lemma er_two : forall A B C (k : parser N A -> parser N B -> parser N C) g h p q,
  (forall p q inp off x n, p inp off = Success x n -> k p q inp off = k (fun _ _ => p inp off) (fun _ _ => q inp (off + n)) inp off) ->
  (forall p q inp off, (forall x n, p inp off <> Success x n) -> k p q inp off = k (fun _ _ => p inp off) p_diverge inp off) ->
  erases g p -> erases h q -> erases (m_two k g h) (k p q).
Proof.
  intros A B C k g h p q K1 K2 H1 H2 inp off. unfold m_two. specialize (H1 inp off). destruct (g inp off) as [o m]. cbn [fst] in H1.
  destruct o as [x n|e c| |]; cbn [fst].
  - specialize (H2 inp (off + n)). destruct (h inp (off + n)) as [o2 m2]. cbn [fst] in *. rewrite (K1 p q inp off x n) by now symmetry. now rewrite <- H1, <- H2.
  - rewrite (K2 p q inp off) by (rewrite <- H1; discriminate). now rewrite <- H1.
  - rewrite (K2 p q inp off) by (rewrite <- H1; discriminate). now rewrite <- H1.
  - rewrite (K2 p q inp off) by (rewrite <- H1; discriminate). now rewrite <- H1.
Qed.
Ltac two := apply er_two; [intros p0 q0 inp0 off0 x0 n0 E0|intros p0 q0 inp0 off0 E0|assumption|assumption].
Lemma er_and : forall A B g h (p : parser N A) (q : parser N B), erases g p -> erases h q -> erases (m_and g h) (p_and p q).
Proof. intros. two; unfold p_and; [now rewrite E0|]. destruct (p0 inp0 off0) eqn:E; try reflexivity. exfalso; eapply E0; reflexivity. Qed.
Lemma er_skip_left : forall A B g h (p : parser N A) (q : parser N B), erases g p -> erases h q -> erases (m_skip_left g h) (p_skip_left p q).
Proof. intros. two; unfold p_skip_left; [now rewrite E0|]. destruct (p0 inp0 off0) eqn:E; try reflexivity. exfalso; eapply E0; reflexivity. Qed.
Lemma er_skip_right : forall A B g h (p : parser N A) (q : parser N B), erases g p -> erases h q -> erases (m_skip_right g h) (p_skip_right p q).
Proof. intros. two; unfold p_skip_right; [now rewrite E0|]. destruct (p0 inp0 off0) eqn:E; try reflexivity. exfalso; eapply E0; reflexivity. Qed.
Lemma er_surround : forall A B C g h k (p : parser N A) (q : parser N B) (r : parser N C),
  erases g p -> erases h q -> erases k r -> erases (m_surround g h k) (p_surround p q r).
Proof. intros. apply er_skip_left; [assumption|]. now apply er_skip_right. Qed.
Lemma er_or : forall A g h (p q : parser N A), erases g p -> erases h q -> erases (m_or g h) (p_or p q).
Proof.
  intros A g h p q H1 H2 inp off. unfold m_or, p_or. rewrite <- (H1 inp off). destruct (g inp off) as [o m]. cbn [fst].
  destruct o as [x n|e [|]| |]; try reflexivity. cbn [negb]. rewrite <- (H2 inp off). now destruct (h inp off).
Qed.
Lemma er_opt : forall A g (p : parser N A), erases g p -> erases (m_opt g) (p_opt p).
Proof. intros A g p H. apply er_or; [|apply er_leaf]. now apply er_map, er_attempt. Qed.
Definition erases_opt {B} (s : option (mparser B)) (t : option (parser N B)) : Prop :=
  match s, t with Some h, Some q => erases h q | None, None => True | _, _ => False end.
Lemma er_loop : forall A B (g : mparser A) p (s : option (mparser B)) t, erases g p -> erases_opt s t ->
  forall fuel rend inp cur items all m, fst (m_loop fuel g s rend inp cur items all m) = rep_loop fuel p t rend inp cur items all.
Proof.
  intros A B g p s t H1 H2. induction fuel as [|fuel IH]; intros rend inp cur items all m; cbn [m_loop rep_loop]; [reflexivity|].
  destruct (rep_stop rend (length items)); [reflexivity|]. destruct s as [h|], t as [q|]; try contradiction.
  - rewrite <- (H2 inp cur). destruct (h inp cur) as [[x n|e c| |] m1]; cbn [fst]; try reflexivity.
    rewrite <- (H1 inp (cur + n)). destruct (g inp (cur + n)) as [[y k|e c| |] m2]; cbn [fst]; try reflexivity. apply IH.
  - rewrite <- (H1 inp cur). destruct (g inp cur) as [[y k|e c| |] m2]; cbn [fst]; try reflexivity. apply IH.
Qed.
Lemma er_rep : forall A B (g : mparser A) p r (s : option (mparser B)) t, erases g p -> erases_opt s t -> erases (m_rep g r s) (p_repeat_sep p r t).
Proof.
  intros A B g p r s t H1 H2 inp off. unfold m_rep, p_repeat_sep, repeat_sep_fuel. rewrite <- (H1 inp off). destruct (g inp off) as [[x n|e c| |] m]; cbn [fst]; try reflexivity.
  pose proof (@er_loop A B g p s t H1 H2 (rep_fuel (rg_end r) inp off) (rg_end r) inp (off + n) [x] n m) as E. destruct (m_loop _ g s _ inp (off + n) [x] n m) as [d m']. cbn [fst] in *. now rewrite E.
Qed.
Lemma er_many0 : forall A (g : mparser A) p, erases g p -> erases (m_many0 g) (p_many0 p).
Proof. intros A g p H. now apply er_rep. Qed.
Lemma er_many1 : forall A (g : mparser A) p, erases g p -> erases (m_many1 g) (p_many1 p).
Proof. intros A g p H. now apply er_rep. Qed.
Lemma er_count : forall A (g : mparser A) p n, erases g p -> erases (m_count g n) (p_count p n).
Proof. intros A g p n H. now apply er_rep. Qed.
Lemma er_many0_sep : forall A B (g : mparser A) p (h : mparser B) q, erases g p -> erases h q -> erases (m_many0_sep g h) (p_many0_sep p q).
Proof. intros A B g p h q H1 H2. now apply er_rep. Qed.
Lemma er_rest : forall A (g : mparser A) p h op, erases g p -> erases h op ->
  forall fuel x inp off, fst (m_rest fuel g h x inp off) = rest_left1_fuel fuel p op x inp off.
Proof.
  intros A g p h op H1 H2. induction fuel as [|fuel IH]; intros x inp off; cbn [m_rest rest_left1_fuel]; [reflexivity|].
  revert inp off. apply er_or; [|apply er_leaf]. intros inp off. rewrite <- (H2 inp off). destruct (h inp off) as [[f n1|e c| |] m]; cbn [fst]; try reflexivity.
  rewrite <- (H1 inp (off + n1)). destruct (g inp (off + n1)) as [[y n2|e c| |] m2]; cbn [fst]; try reflexivity.
  rewrite <- (IH (f x y) inp (off + n1 + n2)). now destruct (m_rest fuel g h (f x y) inp (off + n1 + n2)).
Qed.
Lemma er_chain_left1 : forall A (g : mparser A) p h op, erases g p -> erases h op -> erases (m_chain_left1 g h) (p_chain_left1 p op).
Proof.
  intros A g p h op H1 H2 inp off. unfold m_chain_left1, p_chain_left1, p_flat_map, p_rest_left1. rewrite <- (H1 inp off).
  destruct (g inp off) as [[x n|e c| |] m]; cbn [fst]; try reflexivity.
  rewrite <- (er_rest H1 H2 (chain_fuel inp (off + n)) x inp (off + n)). now destruct (m_rest _ g h x inp (off + n)).
Qed.

(** ** Heights that do not depend on the text *)
Definition flat {A} (k : nat) (g : mparser A) : Prop := forall inp off, hgt (snd (g inp off)) <= k.
Lemma fl_le : forall A j k (g : mparser A), flat j g -> j <= k -> flat k g.
Proof. intros A j k g H L inp off. specialize (H inp off). lia. Qed.
Lemma fl_leaf : forall A (p : parser N A), flat 1 (m_leaf p).
Proof. intros A p inp off. apply le_n. Qed.
Lemma fl_one : forall A B (k : parser N A -> parser N B) j g, flat j g -> flat (S j) (m_one k g).
Proof. intros A B k j g H inp off. specialize (H inp off). unfold m_one. destruct (g inp off) as [o m]. cbn in *. lia. Qed.
Lemma fl_two : forall A B C (k : parser N A -> parser N B -> parser N C) i j g h, flat i g -> flat j h -> flat (S (Nat.max i j)) (m_two k g h).
Proof.
  intros A B C k i j g h H1 H2 inp off. specialize (H1 inp off). unfold m_two. destruct (g inp off) as [o m]. cbn in H1.
  destruct o as [x n|e c| |]; cbn; try lia. specialize (H2 inp (off + n)). destruct (h inp (off + n)) as [o2 m2]. cbn in *. lia.
Qed.
Lemma fl_or : forall A i j (g h : mparser A), flat i g -> flat j h -> flat (S (Nat.max i j)) (m_or g h).
Proof.
  intros A i j g h H1 H2 inp off. specialize (H1 inp off). specialize (H2 inp off). unfold m_or. destruct (g inp off) as [o m]. cbn in H1.
  destruct o as [x n|e [|]| |]; cbn; try lia. destruct (h inp off) as [o2 m2]. cbn in *. lia.
Qed.
Lemma fl_opt : forall A j (g : mparser A), flat j g -> flat (S (S (S (Nat.max 1 j)))) (m_opt g).
Proof. intros A j g H. eapply fl_le; [apply fl_or; [apply fl_one, fl_one, H|apply fl_leaf]|]. lia. Qed.
Definition flat_opt {B} (j : nat) (s : option (mparser B)) : Prop := match s with Some h => flat j h | None => True end.
(** The calls of a loop are not nested in one another. *)
Lemma fl_loop : forall A B k (g : mparser A) (s : option (mparser B)), flat k g -> flat_opt k s ->
  forall fuel rend inp cur items all m, hgt (snd (m_loop fuel g s rend inp cur items all m)) <= Nat.max (hgt m) k.
Proof.
  intros A B k g s H1 H2. induction fuel as [|fuel IH]; intros rend inp cur items all m; cbn [m_loop]; [cbn; lia|].
  destruct (rep_stop rend (length items)); [cbn; lia|].
  assert (E : forall cur all m, hgt (snd (let '(o, m1) := g inp cur in
      match o with
      | Success v n => m_loop fuel g s rend inp (cur + n) (v :: items) (all + n) (both m m1)
      | Failure _ _ => (RDone (rev items) all, both m m1)
      | Panic => (RPanic, both m m1)
      | Diverge => (RDiverge, both m m1)
      end)) <= Nat.max (hgt m) k).
  { intros c a m0. specialize (H1 inp c). destruct (g inp c) as [[v n|e b| |] m1]; cbn [fst snd] in *; [|cbn; lia..].
    specialize (IH rend inp (c + n) (v :: items) (a + n) (both m0 m1)). cbn in IH. lia. }
  destruct s as [h|]; [|apply E]. specialize (H2 inp cur). destruct (h inp cur) as [[v n|e b| |] m1]; cbn [snd] in H2; [|cbn; lia..].
  specialize (E (cur + n) (all + n) (both m m1)). cbn in E. lia.
Qed.
Lemma fl_rep : forall A B i j (g : mparser A) r (s : option (mparser B)), flat i g -> flat_opt j s -> flat (S (Nat.max i j)) (m_rep g r s).
Proof.
  intros A B i j g r s H1 H2 inp off. unfold m_rep.
  assert (K1 : flat (Nat.max i j) g) by (eapply fl_le; [exact H1|lia]).
  assert (K2 : flat_opt (Nat.max i j) s) by (destruct s; [eapply fl_le; [exact H2|lia]|exact I]).
  pose proof (K1 inp off) as E. destruct (g inp off) as [[x n|e c| |] m]; cbn [snd] in E; [|cbn; lia..].
  pose proof (@fl_loop A B _ g s K1 K2 (rep_fuel (rg_end r) inp off) (rg_end r) inp (off + n) [x] n m) as L.
  destruct (m_loop _ g s _ inp (off + n) [x] n m) as [d m']. cbn in *. lia.
Qed.
Lemma fl_rep0 : forall A i (g : mparser A) r, flat i g -> flat (S i) (m_rep g r (None : option (mparser unit))).
Proof. intros A i g r H. eapply fl_le; [apply (@fl_rep A unit i 0 g r None H I)|]. lia. Qed.
