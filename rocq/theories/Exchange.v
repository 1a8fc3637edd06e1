(** Exchanging parts of a grammar: which relations between parsers all combinators respect. *)
From Verif Require Import Base Core Comb Closure.
Set Implicit Arguments.
Local Open Scope string_scope.
Local Open Scope nat_scope.
Local Open Scope list_scope.

(** Two outcomes are alike: with [shp] the content of errors may differ, with [low] the first may be a run that has not
    returned. *)
Inductive alike (low shp : bool) {I A} : outcome I A -> outcome I A -> Prop :=
| Ag_success : forall v n, alike low shp (Success v n) (Success v n)
| Ag_failure : forall e e' c, (shp = false -> e = e') -> alike low shp (Failure e c) (Failure e' c)
| Ag_panic : alike low shp Panic Panic
| Ag_diverge : alike low shp Diverge Diverge
| Ag_low : forall o, low = true -> alike low shp Diverge o.

(** [base] is the exchange of single parts; [inside base p q]: q is p with such parts exchanged at any number of places
    and at any depth.  All primitives and closures stay the same. *)
Inductive inside {I : Type} (base : forall A, parser I A -> parser I A -> Prop) : forall A, parser I A -> parser I A -> Prop :=
| X_base : forall A (p q : parser I A), base A p q -> inside base p q
| X_refl : forall A (p : parser I A), inside base p p
| X_trans : forall A (p q r : parser I A), inside base p q -> inside base q r -> inside base p r
| X_filter : forall A (p q : parser I A) f, inside base p q -> inside base (p_filter p f) (p_filter q f)
| X_flat_map : forall A B (p q : parser I A) (f g : A -> parser I B),
    inside base p q -> (forall a, inside base (f a) (g a)) -> inside base (p_flat_map p f) (p_flat_map q g)
| X_map : forall A B (p q : parser I A) (f : A -> B), inside base p q -> inside base (p_map p f) (p_map q f)
| X_map_panic : forall A B (p q : parser I A) (f : A -> option B), inside base p q -> inside base (p_map_panic p f) (p_map_panic q f)
| X_exists : forall A (p q : parser I A), inside base p q -> inside base (p_exists p) (p_exists q)
| X_not : forall A (p q : parser I A), inside base p q -> inside base (p_not p) (p_not q)
| X_or : forall A (p q p' q' : parser I A), inside base p q -> inside base p' q' -> inside base (p_or p p') (p_or q q')
| X_and : forall A B (p q : parser I A) (p' q' : parser I B), inside base p q -> inside base p' q' -> inside base (p_and p p') (p_and q q')
| X_attempt : forall A (p q : parser I A), inside base p q -> inside base (p_attempt p) (p_attempt q)
| X_rest_left1 : forall A (p q : parser I A) op op' (x : A),
    inside base p q -> inside base op op' -> inside base (p_rest_left1 p op x) (p_rest_left1 q op' x)
| X_repeat_sep : forall A B (p q : parser I A) r (s t : parser I B),
    inside base p q -> inside base s t -> inside base (p_repeat_sep p r (Some s)) (p_repeat_sep q r (Some t))
| X_repeat_nosep : forall A B (p q : parser I A) r,
    inside base p q -> inside base (p_repeat_sep p r (None : option (parser I B))) (p_repeat_sep q r (None : option (parser I B)))
| X_collect : forall A (p q : parser I A), inside base p q -> inside base (p_collect p) (p_collect q)
| X_map_res : forall A B E (p q : parser I A) (f : A -> B + E), inside base p q -> inside base (p_map_res p f) (p_map_res q f)
| X_map_opt : forall A B (p q : parser I A) (f : A -> option B), inside base p q -> inside base (p_map_opt p f) (p_map_opt q f)
| X_discard : forall A (p q : parser I A), inside base p q -> inside base (p_discard p) (p_discard q)
| X_lazy : forall A (f g : unit -> parser I A), inside base (f tt) (g tt) -> inside base (p_lazy f) (p_lazy g)
| X_log_map : forall A B (p q : parser I A) (f : outcome I A -> B), inside base p q -> inside base (p_log_map p f) (p_log_map q f)
| X_name : forall A (p q : parser I A) nm, inside base p q -> inside base (p_name p nm) (p_name q nm)
| X_expect : forall A (p q : parser I A) nm, inside base p q -> inside base (p_expect p nm) (p_expect q nm)
| X_last_offset : forall A (p q : parser I A), inside base p q -> inside base (p_last_offset p) (p_last_offset q)
| X_next_offset : forall A (p q : parser I A), inside base p q -> inside base (p_next_offset p) (p_next_offset q)
| X_peek : forall A (p q : parser I A), inside base p q -> inside base (p_peek p) (p_peek q)
| X_skip_left : forall A B (p q : parser I A) (p' q' : parser I B),
    inside base p q -> inside base p' q' -> inside base (p_skip_left p p') (p_skip_left q q')
| X_skip_right : forall A B (p q : parser I A) (p' q' : parser I B),
    inside base p q -> inside base p' q' -> inside base (p_skip_right p p') (p_skip_right q q').

Lemma alike_refl : forall low shp I A (o : outcome I A), alike low shp o o.
Proof. intros low shp I A [v n|e c| |]; constructor. reflexivity. Qed.
Lemma alike_trans : forall low shp I A (o o' o'' : outcome I A), alike low shp o o' -> alike low shp o' o'' -> alike low shp o o''.
Proof. intros low shp I A o o' o'' H K. inv H; [exact K|inv K; constructor; intros E; now rewrite (H0 E), (H3 E)|exact K|exact K|now constructor]. Qed.
Lemma alike_eq : forall I A (o o' : outcome I A), alike false false o o' -> o = o'.
Proof. intros I A o o' H. inv H; try reflexivity; [now rewrite H0|discriminate]. Qed.
Lemma alike_shape : forall I A (o o' : outcome I A), alike false true o o' <-> erase o = erase o'.
Proof.
  intros I A o o'. split; [intros H; inv H; try reflexivity; discriminate|].
  destruct o as [v n|e c| |], o' as [v' n'|e' c'| |]; cbn; intros H; inv H; constructor; discriminate.
Qed.
Lemma alike_below : forall I A (o o' : outcome I A), alike true false o o' <-> o = Diverge \/ o = o'.
Proof.
  intros I A o o'. split; [intros H; inv H; auto; right; now rewrite H0|].
  intros [E|E]; subst; [now constructor|apply alike_refl].
Qed.

Section Rel.
Variables low shp : bool.
Notation ag := (alike low shp).
(** Parsers with outcomes that are alike everywhere. *)
Definition exchangeable {I A} (p q : parser I A) : Prop := forall inp off, ag (p inp off) (q inp off).

Lemma ag_advance : forall I A n (o o' : outcome I A), ag o o' -> ag (advance_success n o) (advance_success n o').
Proof. intros I A n o o' H. inv H; cbn; try (now constructor). Qed.
Lemma ag_commit : forall I A b (o o' : outcome I A), ag o o' -> ag (add_commit b o) (add_commit b o').
Proof. intros I A b o o' H. inv H; cbn; try (now constructor). Qed.

(** The same for the loop of the repetitions. *)
Inductive rag {A} : rep_result A -> rep_result A -> Prop :=
| R_same : forall r, rag r r
| R_low : forall r, low = true -> rag RDiverge r.

Lemma rep_loop_exchangeable : forall I A B (p q : parser I A) (sep sep' : option (parser I B)) rend inp,
  exchangeable p q -> match sep, sep' with Some s, Some t => exchangeable s t | None, None => True | _, _ => False end ->
  forall fuel cur items al, rag (rep_loop fuel p sep rend inp cur items al) (rep_loop fuel q sep' rend inp cur items al).
Proof.
  intros I A B p q sep sep' rend inp Hp Hs fuel. induction fuel as [|fuel IH]; intros cur items al; cbn; [apply R_same|].
  destruct (rep_stop rend (length items)); [apply R_same|].
  destruct sep as [s|], sep' as [t|]; try contradiction.
  - pose proof (Hs inp cur) as G. inv G; try apply R_same; [|now apply R_low].
    pose proof (Hp inp (cur + n)) as K. inv K; try apply R_same; [apply IH|now apply R_low].
  - pose proof (Hp inp cur) as K. inv K; try apply R_same; [apply IH|now apply R_low].
Qed.
Lemma repeat_exchangeable : forall I A B (p q : parser I A) r (sep sep' : option (parser I B)),
  exchangeable p q -> match sep, sep' with Some s, Some t => exchangeable s t | None, None => True | _, _ => False end ->
  exchangeable (p_repeat_sep p r sep) (p_repeat_sep q r sep').
Proof.
  intros I A B p q r sep sep' Hp Hs inp off. unfold p_repeat_sep, repeat_sep_fuel.
  assert (G : forall x y : rep_result A, rag x y -> ag (rep_finish (rg_start r) inp off x) (rep_finish (rg_start r) inp off y)).
  { intros x y H. inv H; [apply alike_refl|now constructor]. }
  apply G. pose proof (Hp inp off) as K. inv K; try apply R_same; [now apply rep_loop_exchangeable|now apply R_low].
Qed.
Lemma rest_left1_exchangeable : forall I A (p q : parser I A) op op', exchangeable p q -> exchangeable op op' ->
  forall x, exchangeable (p_rest_left1 p op x) (p_rest_left1 q op' x).
Proof.
  intros I A p q op op' Hp Ho x inp off. unfold p_rest_left1.
  enough (G : forall fuel x, exchangeable (rest_left1_fuel fuel p op x) (rest_left1_fuel fuel q op' x)) by apply G.
  clear x inp off. induction fuel as [|fuel IH]; intros x inp off; cbn; [apply alike_refl|]. unfold p_or.
  pose proof (Ho inp off) as G. inv G; cbn; try apply alike_refl; try (now constructor).
  - pose proof (Hp inp (off + n)) as K. inv K; cbn; try apply alike_refl; try (now constructor).
    + pose proof (IH (v x v0) inp (off + n + n0)) as L. inv L; cbn; try apply alike_refl; try (now constructor).
      destruct (cs_or c (negb (n =? 0))); cbn; try (now constructor).
    + destruct (cs_or c (negb (n =? 0))); cbn; try (now constructor).
  - destruct c; cbn; try (now constructor).
Qed.

(** The exchange of parts that are alike gives grammars that are alike. *)
Theorem inside_exchangeable : forall I (base : forall A, parser I A -> parser I A -> Prop),
  (forall A (p q : parser I A), base A p q -> exchangeable p q) ->
  forall A (p q : parser I A), inside base p q -> exchangeable p q.
Proof.
  intros I base Hb A p q H. induction H; try (intros inp off; apply alike_refl).
  - now apply Hb.
  - intros inp off. eapply alike_trans; [apply IHinside1|apply IHinside2].
  - intros inp off. pose proof (IHinside inp off) as K. unfold p_filter. inv K; try (now constructor). apply alike_refl.
  - intros inp off. pose proof (IHinside inp off) as K. unfold p_flat_map. inv K; try (now constructor).
    apply ag_advance, ag_commit, H1.
  - intros inp off. pose proof (IHinside inp off) as K. unfold p_map. inv K; try (now constructor).
  - intros inp off. pose proof (IHinside inp off) as K. unfold p_map_panic. inv K; try (now constructor). apply alike_refl.
  - intros inp off. pose proof (IHinside inp off) as K. unfold p_exists. inv K; try (now constructor).
  - intros inp off. pose proof (IHinside inp off) as K. unfold p_not. inv K; try (now constructor). apply alike_refl.
  - intros inp off. pose proof (IHinside1 inp off) as K. unfold p_or. inv K; try (now constructor). destruct c; cbn; [now constructor|apply IHinside2].
  - intros inp off. pose proof (IHinside1 inp off) as K. unfold p_and. inv K; try (now constructor).
    pose proof (IHinside2 inp (off + n)) as L. inv L; try (now constructor).
  - intros inp off. pose proof (IHinside inp off) as K. unfold p_attempt. inv K; cbn; try (now constructor). destruct c; now constructor.
  - now apply rest_left1_exchangeable.
  - now apply repeat_exchangeable.
  - now apply repeat_exchangeable.
  - intros inp off. pose proof (IHinside inp off) as K. unfold p_collect. inv K; try (now constructor). apply alike_refl.
  - intros inp off. pose proof (IHinside inp off) as K. unfold p_map_res. inv K; try (now constructor). apply alike_refl.
  - intros inp off. pose proof (IHinside inp off) as K. unfold p_map_opt. inv K; try (now constructor). apply alike_refl.
  - intros inp off. pose proof (IHinside inp off) as K. unfold p_discard. inv K; try (now constructor).
  - exact IHinside.
  - exact IHinside.
  - intros inp off. pose proof (IHinside inp off) as K. unfold p_name. inv K; try (now constructor).
    destruct shp eqn:Es.
    + destruct (is_custom e), (is_custom e'); constructor; discriminate.
    + match goal with K : false = false -> _ |- _ => rewrite (K eq_refl) end. apply alike_refl.
  - intros inp off. pose proof (IHinside inp off) as K. unfold p_expect. inv K; try (now constructor).
    constructor. intros E. match goal with K : shp = false -> _ |- _ => now rewrite (K E) end.
  - intros inp off. pose proof (IHinside inp off) as K. unfold p_last_offset. inv K; try (now constructor).
  - intros inp off. pose proof (IHinside inp off) as K. unfold p_next_offset. inv K; try (now constructor).
  - intros inp off. pose proof (IHinside inp off) as K. unfold p_peek. inv K; try (now constructor).
  - intros inp off. pose proof (IHinside1 inp off) as K. unfold p_skip_left. inv K; try (now constructor).
    pose proof (IHinside2 inp (off + n)) as L. inv L; try (now constructor).
  - intros inp off. pose proof (IHinside1 inp off) as K. unfold p_skip_right. inv K; try (now constructor).
    pose proof (IHinside2 inp (off + n)) as L. inv L; cbn; try (now constructor).
Qed.
End Rel.
