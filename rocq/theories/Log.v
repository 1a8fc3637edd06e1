(** What parsers write to the log.  [debug], [info], [warn], [error] and [log] (extension/parsers/logging_parsers.rs 13-19,
    internal/parser_impl/logging_parser_impl.rs 8-41) are [log_map]; here a run gives, beside its outcome, the lines it writes.  The combinators
    mirror those of Comb.v: a parser that calls others writes what they write, in the order of the calls.  [werases] says that the outcome is the
    one of Comb.v. *)
From Verif Require Import Base Core Comb Closure RepFacts LitFacts Runs.
Set Implicit Arguments.
Local Open Scope string_scope.
Local Open Scope nat_scope.
Local Open Scope list_scope.

(** extension/parsers/logging_parsers.rs 4-10 *)
Inductive level := LDebug | LInfo | LWarn | LErr.
(** A line: its level and its text. *)
Record line := Line { l_level : level; l_text : list N }.
(** core/parser.rs 7-10, internal/parser_impl/parser_runner_impl.rs 16-18 *)
Definition wparser (A : Type) := list N -> nat -> outcome N A * list line.
Definition werases {A} (g : wparser A) (p : parser N A) : Prop := forall inp off, fst (g inp off) = p inp off.

(** A parser that calls no other. *)
Definition w_leaf {A} (p : parser N A) : wparser A := fun inp off => (p inp off, []).
(** logging_parsers_impl.rs 8-25: the line is written when the parser has returned; [f] is the Display text of what the closure makes of the
    result.  A panic unwinds before the line is written. *)
Definition w_log_map {A} (g : wparser A) (name : list N) (lv : level) (f : outcome N A -> list N) : wparser A := fun inp off =>
  let '(o, w) := g inp off in
  match o with
  | Panic => (Panic, w)
  | Diverge => (Diverge, w)
  | _ => (o, w ++ [Line lv (name ++ bs " = " ++ f o)])
  end.
(** A parser that calls one other at its own position: map, filter (internal/parsers_impl.rs 67-88, 108-120), attempt, opt, not, peek, name. *)
Definition w_one {A B} (k : parser N A -> parser N B) (g : wparser A) : wparser B := fun inp off =>
  let '(o, w) := g inp off in (k (fun _ _ => o) inp off, w).
(** A parser that calls a second one where the first ended: and_then (operator_parsers_impl.rs 54-76), skip_left, skip_right
    (skip_parser_impl.rs 21-69). *)
Definition w_two {A B C} (k : parser N A -> parser N B -> parser N C) (g : wparser A) (h : wparser B) : wparser C := fun inp off =>
  let '(o, w) := g inp off in
  match o with
  | Success _ n => let '(o2, w2) := h inp (off + n) in (k (fun _ _ => o) (fun _ _ => o2) inp off, w ++ w2)
  | _ => (k (fun _ _ => o) p_diverge inp off, w)
  end.
(** internal/parsers_impl.rs 108-120, operator_parsers_impl.rs 79-83, 17-36, peek_parsers_impl.rs 8-19 *)
Definition w_map {A B} (g : wparser A) (f : A -> B) : wparser B := w_one (fun p => p_map p f) g.
Definition w_map_panic {A B} (g : wparser A) (f : A -> option B) : wparser B := w_one (fun p => p_map_panic p f) g.
Definition w_attempt {A} (g : wparser A) : wparser A := w_one (@p_attempt N A) g.
Definition w_not {A} (g : wparser A) : wparser unit := w_one (@p_not N A) g.
Definition w_peek {A} (g : wparser A) : wparser A := w_one (@p_peek N A) g.
(** operator_parsers_impl.rs 54-76, skip_parser_impl.rs 21-69 *)
Definition w_and {A B} (g : wparser A) (h : wparser B) : wparser (A * B) := w_two (@p_and N A B) g h.
Definition w_skip_left {A B} (g : wparser A) (h : wparser B) : wparser B := w_two (@p_skip_left N A B) g h.
Definition w_skip_right {A B} (g : wparser A) (h : wparser B) : wparser A := w_two (@p_skip_right N A B) g h.
(** operator_parsers_impl.rs 39-51: what the first alternative wrote stays. *)
Definition w_or {A} (g h : wparser A) : wparser A := fun inp off =>
  let '(o, w) := g inp off in
  match o with
  | Failure _ false => let '(o2, w2) := h inp off in (o2, w ++ w2)
  | _ => (o, w)
  end.
(** extension/parsers/operator_parsers.rs 14-18 *)
Definition w_opt {A} (g : wparser A) : wparser (option A) := w_or (w_map (w_attempt g) (@Some A)) (w_leaf (p_successful None)).

(** repeat_parsers_impl.rs 81-111; [w] are the lines written before. *)
Fixpoint w_loop {A B} (fuel : nat) (g : wparser A) (sep : option (wparser B)) (rend : bound) (inp : list N) (cur : nat) (items : list A) (all : nat)
  (w : list line) : rep_result A * list line :=
  match fuel with
  | 0 => (RDiverge, w)
  | S fuel' =>
      if rep_stop rend (length items) then (RDone (rev items) all, w)
      else
        let elem_step := fun cur all w =>
          let '(o, w1) := g inp cur in
          match o with
          | Success v n => w_loop fuel' g sep rend inp (cur + n) (v :: items) (all + n) (w ++ w1)
          | Failure _ _ => (RDone (rev items) all, w ++ w1)
          | Panic => (RPanic, w ++ w1)
          | Diverge => (RDiverge, w ++ w1)
          end in
        match sep with
        | Some h =>
            let '(o, w1) := h inp cur in
            match o with
            | Success _ n => elem_step (cur + n) (all + n) (w ++ w1)
            | Failure _ _ => (RDone (rev items) all, w ++ w1)
            | Panic => (RPanic, w ++ w1)
            | Diverge => (RDiverge, w ++ w1)
            end
        | None => elem_step cur all w
        end
  end.
(** repeat_parsers_impl.rs 60-132 *)
Definition w_rep {A B} (g : wparser A) (r : range) (sep : option (wparser B)) : wparser (list A) := fun inp off =>
  let '(o, w) := g inp off in
  let '(d, w') := match o with
    | Success v n => w_loop (rep_fuel (rg_end r) inp off) g sep (rg_end r) inp (off + n) [v] n w
    | Failure _ _ => (RDone [] 0, w)
    | Panic => (RPanic, w)
    | Diverge => (RDiverge, w)
    end in
  (rep_finish (rg_start r) inp off d, w').
(** repeat_parsers_impl.rs 18-57 *)
Definition w_many0 {A} (g : wparser A) : wparser (list A) := w_rep g (rg_from 0) (None : option (wparser unit)).
Definition w_many1 {A} (g : wparser A) : wparser (list A) := w_rep g (rg_from 1) (None : option (wparser unit)).
Definition w_many1_sep {A B} (g : wparser A) (h : wparser B) : wparser (list A) := w_rep g (rg_from 1) (Some h).

(** ** The outcomes are those of Comb.v *)
Lemma we_leaf : forall A (p : parser N A), werases (w_leaf p) p.
Proof. intros A p inp off. reflexivity. Qed.
Lemma we_log_map : forall A B (g : wparser A) p name lv f (f' : outcome N A -> B), werases g p -> werases (w_log_map g name lv f) (p_log_map p f').
Proof.
  intros A B g p name lv f f' H inp off. specialize (H inp off). unfold w_log_map, p_log_map. rewrite <- H.
  destruct (g inp off) as [[v n|e c| |] w]; reflexivity.
Qed.
Lemma we_one : forall A B (k : parser N A -> parser N B) g p, (forall p inp off, k p inp off = k (fun _ _ => p inp off) inp off) ->
  werases g p -> werases (w_one k g) (k p).
Proof. intros A B k g p K H inp off. unfold w_one. specialize (H inp off). destruct (g inp off) as [o w]. cbn [fst] in *. subst o. symmetry. apply K. Qed.
Lemma we_map : forall A B g p (f : A -> B), werases g p -> werases (w_map g f) (p_map p f).
Proof. intros A B g p f H. now apply (@we_one A B (fun p => p_map p f)). Qed.
Lemma we_map_panic : forall A B g p (f : A -> option B), werases g p -> werases (w_map_panic g f) (p_map_panic p f).
Proof. intros A B g p f H. now apply (@we_one A B (fun p => p_map_panic p f)). Qed.
Lemma we_attempt : forall A g (p : parser N A), werases g p -> werases (w_attempt g) (p_attempt p).
Proof. intros A g p H. now apply (@we_one A A (@p_attempt N A)). Qed.
Lemma we_not : forall A g (p : parser N A), werases g p -> werases (w_not g) (p_not p).
Proof. intros A g p H. now apply (@we_one A unit (@p_not N A)). Qed.
Lemma we_peek : forall A g (p : parser N A), werases g p -> werases (w_peek g) (p_peek p).
Proof. intros A g p H. now apply (@we_one A A (@p_peek N A)). Qed.
Lemma we_two : forall A B C (k : parser N A -> parser N B -> parser N C) g h p q,
  (forall p q inp off x n, p inp off = Success x n -> k p q inp off = k (fun _ _ => p inp off) (fun _ _ => q inp (off + n)) inp off) ->
  (forall p q inp off, (forall x n, p inp off <> Success x n) -> k p q inp off = k (fun _ _ => p inp off) p_diverge inp off) ->
  werases g p -> werases h q -> werases (w_two k g h) (k p q).
Proof.
  intros A B C k g h p q K1 K2 H1 H2 inp off. unfold w_two. specialize (H1 inp off). destruct (g inp off) as [o w]. cbn [fst] in H1.
  destruct o as [x n|e c| |]; cbn [fst].
  - specialize (H2 inp (off + n)). destruct (h inp (off + n)) as [o2 w2]. cbn [fst] in *. rewrite (K1 p q inp off x n) by now symmetry. now rewrite <- H1, <- H2.
  - rewrite (K2 p q inp off) by (rewrite <- H1; discriminate). now rewrite <- H1.
  - rewrite (K2 p q inp off) by (rewrite <- H1; discriminate). now rewrite <- H1.
  - rewrite (K2 p q inp off) by (rewrite <- H1; discriminate). now rewrite <- H1.
Qed.
Ltac two := apply we_two; [intros p0 q0 inp0 off0 x0 n0 E0|intros p0 q0 inp0 off0 E0|assumption|assumption].
Lemma we_and : forall A B g h (p : parser N A) (q : parser N B), werases g p -> werases h q -> werases (w_and g h) (p_and p q).
Proof. intros. two; unfold p_and; [now rewrite E0|]. destruct (p0 inp0 off0) eqn:E; try reflexivity. exfalso; eapply E0; reflexivity. Qed.
Lemma we_skip_left : forall A B g h (p : parser N A) (q : parser N B), werases g p -> werases h q -> werases (w_skip_left g h) (p_skip_left p q).
Proof. intros. two; unfold p_skip_left; [now rewrite E0|]. destruct (p0 inp0 off0) eqn:E; try reflexivity. exfalso; eapply E0; reflexivity. Qed.
Lemma we_skip_right : forall A B g h (p : parser N A) (q : parser N B), werases g p -> werases h q -> werases (w_skip_right g h) (p_skip_right p q).
Proof. intros. two; unfold p_skip_right; [now rewrite E0|]. destruct (p0 inp0 off0) eqn:E; try reflexivity. exfalso; eapply E0; reflexivity. Qed.
Lemma we_or : forall A g h (p q : parser N A), werases g p -> werases h q -> werases (w_or g h) (p_or p q).
Proof.
  intros A g h p q H1 H2 inp off. unfold w_or, p_or. rewrite <- (H1 inp off). destruct (g inp off) as [o w]. cbn [fst].
  destruct o as [x n|e [|]| |]; try reflexivity. cbn [negb]. rewrite <- (H2 inp off). now destruct (h inp off).
Qed.
Lemma we_opt : forall A g (p : parser N A), werases g p -> werases (w_opt g) (p_opt p).
Proof. intros A g p H. apply we_or; [|apply we_leaf]. now apply we_map, we_attempt. Qed.
Definition werases_opt {B} (s : option (wparser B)) (t : option (parser N B)) : Prop :=
  match s, t with Some h, Some q => werases h q | None, None => True | _, _ => False end.
Lemma we_loop : forall A B (g : wparser A) p (s : option (wparser B)) t, werases g p -> werases_opt s t ->
  forall fuel rend inp cur items all w, fst (w_loop fuel g s rend inp cur items all w) = rep_loop fuel p t rend inp cur items all.
Proof.
  intros A B g p s t H1 H2. induction fuel as [|fuel IH]; intros rend inp cur items all w; cbn [w_loop rep_loop]; [reflexivity|].
  destruct (rep_stop rend (length items)); [reflexivity|]. destruct s as [h|], t as [q|]; try contradiction.
  - rewrite <- (H2 inp cur). destruct (h inp cur) as [[x n|e c| |] w1]; cbn [fst]; try reflexivity.
    rewrite <- (H1 inp (cur + n)). destruct (g inp (cur + n)) as [[y k|e c| |] w2]; cbn [fst]; try reflexivity. apply IH.
  - rewrite <- (H1 inp cur). destruct (g inp cur) as [[y k|e c| |] w2]; cbn [fst]; try reflexivity. apply IH.
Qed.
Lemma we_rep : forall A B (g : wparser A) p r (s : option (wparser B)) t, werases g p -> werases_opt s t -> werases (w_rep g r s) (p_repeat_sep p r t).
Proof.
  intros A B g p r s t H1 H2 inp off. unfold w_rep, p_repeat_sep, repeat_sep_fuel. rewrite <- (H1 inp off). destruct (g inp off) as [[x n|e c| |] w]; cbn [fst]; try reflexivity.
  pose proof (@we_loop A B g p s t H1 H2 (rep_fuel (rg_end r) inp off) (rg_end r) inp (off + n) [x] n w) as E. destruct (w_loop _ g s _ inp (off + n) [x] n w) as [d w']. cbn [fst] in *. now rewrite E.
Qed.
Lemma we_many0 : forall A (g : wparser A) p, werases g p -> werases (w_many0 g) (p_many0 p).
Proof. intros A g p H. now apply we_rep. Qed.
Lemma we_many1_sep : forall A B (g : wparser A) p (h : wparser B) q, werases g p -> werases h q -> werases (w_many1_sep g h) (p_many1_sep p q).
Proof. intros A B g p h q H1 H2. now apply we_rep. Qed.

(** ** What is written where *)
(** [says wr g l ps]: before [l], wherever it stands, [g] writes the lines that [wr] gives for the positions [ps], counted from the place of [l]. *)
Definition says {A} (wr : list N -> nat -> line) (g : wparser A) (l : list N) (ps : list nat) : Prop :=
  forall pre, snd (g (pre ++ l) (length pre)) = map (fun i => wr (pre ++ l) (length pre + i)) ps.
Definition mute {A} (g : wparser A) : Prop := forall inp off, snd (g inp off) = [].

Lemma mu_leaf : forall A (p : parser N A), mute (w_leaf p).
Proof. intros A p inp off. reflexivity. Qed.
Lemma mu_one : forall A B (k : parser N A -> parser N B) g, mute g -> mute (w_one k g).
Proof. intros A B k g H inp off. unfold w_one. specialize (H inp off). now destruct (g inp off). Qed.
Lemma mu_two : forall A B C (k : parser N A -> parser N B -> parser N C) g h, mute g -> mute h -> mute (w_two k g h).
Proof.
  intros A B C k g h H1 H2 inp off. unfold w_two. specialize (H1 inp off). destruct (g inp off) as [[x n|e c| |] w]; cbn [snd] in *; try assumption.
  specialize (H2 inp (off + n)). destruct (h inp (off + n)) as [o2 w2]. cbn [snd] in *. now subst.
Qed.
Lemma mu_or : forall A (g h : wparser A), mute g -> mute h -> mute (w_or g h).
Proof.
  intros A g h H1 H2 inp off. unfold w_or. specialize (H1 inp off). destruct (g inp off) as [[x n|e [|]| |] w]; cbn [snd] in *; try assumption.
  specialize (H2 inp off). destruct (h inp off) as [o2 w2]. cbn [snd] in *. now subst.
Qed.
Lemma mu_opt : forall A (g : wparser A), mute g -> mute (w_opt g).
Proof. intros A g H. apply mu_or; [now apply mu_one, mu_one|apply mu_leaf]. Qed.
Lemma mu_loop : forall A B (g : wparser A) (h : wparser B), mute g -> mute h -> forall fuel rend inp cur items all w,
  snd (w_loop fuel g (Some h) rend inp cur items all w) = w.
Proof.
  intros A B g h H1 H2. induction fuel as [|fuel IH]; intros rend inp cur items all w; cbn [w_loop]; [reflexivity|].
  destruct (rep_stop rend (length items)); [reflexivity|]. specialize (H2 inp cur). destruct (h inp cur) as [[x n|e c| |] w1]; cbn [snd] in *; subst w1; rewrite ?app_nil_r; try reflexivity.
  specialize (H1 inp (cur + n)). destruct (g inp (cur + n)) as [[y k|e c| |] w2]; cbn [snd] in *; subst w2; rewrite ?app_nil_r; try reflexivity. apply IH.
Qed.
Lemma mu_many1_sep : forall A B (g : wparser A) (h : wparser B), mute g -> mute h -> mute (w_many1_sep g h).
Proof.
  intros A B g h H1 H2 inp off. unfold w_many1_sep, w_rep. pose proof (H1 inp off) as H. destruct (g inp off) as [[x n|e c| |] w]; cbn [snd] in H; subst w; try reflexivity.
  pose proof (@mu_loop A B g h H1 H2 (rep_fuel (rg_end (rg_from 1)) inp off) (rg_end (rg_from 1)) inp (off + n) [x] n []) as E. destruct (w_loop _ g _ _ inp (off + n) [x] n []). exact E.
Qed.

Section Says.
Variable wr : list N -> nat -> line.
Lemma s_mute : forall A (g : wparser A) l, mute g -> says wr g l [].
Proof. intros A g l H pre. apply H. Qed.
Lemma s_one : forall A B (k : parser N A -> parser N B) g l ps, says wr g l ps -> says wr (w_one k g) l ps.
Proof. intros A B k g l ps H pre. specialize (H pre). unfold w_one. now destruct (g _ _). Qed.
Lemma s_move : forall A (g : wparser A) s rest ps, says wr g rest ps -> forall pre,
  snd (g (pre ++ s ++ rest) (length pre + length s)) = map (fun i => wr (pre ++ s ++ rest) (length pre + i)) (map (Nat.add (length s)) ps).
Proof.
  intros A g s rest ps H pre. specialize (H (pre ++ s)). rewrite <- app_assoc, app_length in H. rewrite H, map_map.
  apply map_ext. intros i. now rewrite Nat.add_assoc.
Qed.
Lemma s_two : forall A B C (k : parser N A -> parser N B -> parser N C) g h p s rest v ps qs,
  werases g p -> acc p s rest v -> says wr g (s ++ rest) ps -> says wr h rest qs -> says wr (w_two k g h) (s ++ rest) (ps ++ map (Nat.add (length s)) qs).
Proof.
  intros A B C k g h p s rest v ps qs E H Hg Hh pre. specialize (E (pre ++ s ++ rest) (length pre)). rewrite H in E. specialize (Hg pre).
  pose proof (s_move s Hh pre) as M. unfold w_two. destruct (g _ _) as [o w]. cbn [fst snd] in *. subst o w.
  destruct (h _ _) as [o2 w2]. cbn [snd] in *. subst w2. now rewrite map_app.
Qed.
Lemma s_two_no : forall A B C (k : parser N A -> parser N B -> parser N C) g h p l c ps,
  werases g p -> rej p l c -> says wr g l ps -> says wr (w_two k g h) l ps.
Proof.
  intros A B C k g h p l c ps E H Hg pre. specialize (E (pre ++ l) (length pre)). destruct (H pre) as [e F]. rewrite F in E. specialize (Hg pre).
  unfold w_two. destruct (g _ _) as [o w]. cbn [fst snd] in *. now subst o w.
Qed.
Lemma s_or1 : forall A (g h : wparser A) p s rest v ps, werases g p -> acc p s rest v -> says wr g (s ++ rest) ps -> says wr (w_or g h) (s ++ rest) ps.
Proof.
  intros A g h p s rest v ps E H Hg pre. specialize (E (pre ++ s ++ rest) (length pre)). rewrite H in E. specialize (Hg pre).
  unfold w_or. destruct (g _ _) as [o w]. cbn [fst snd] in *. now subst o w.
Qed.
Lemma s_or2 : forall A (g h : wparser A) p l ps qs, werases g p -> rej p l false -> says wr g l ps -> says wr h l qs -> says wr (w_or g h) l (ps ++ qs).
Proof.
  intros A g h p l ps qs E H Hg Hh pre. specialize (E (pre ++ l) (length pre)). destruct (H pre) as [e F]. rewrite F in E. specialize (Hg pre). specialize (Hh pre).
  unfold w_or. destruct (g _ _) as [o w]. cbn [fst snd] in *. subst o w. destruct (h _ _) as [o2 w2]. cbn [snd] in *. subst w2. now rewrite map_app.
Qed.
Lemma s_opt1 : forall A (g : wparser A) p s rest v ps, werases g p -> acc p s rest v -> says wr g (s ++ rest) ps -> says wr (w_opt g) (s ++ rest) ps.
Proof. intros A g p s rest v ps E H Hg. eapply s_or1; [apply we_map, we_attempt, E|apply a_map, a_attempt, H|now apply s_one, s_one]. Qed.
Lemma s_opt2 : forall A (g : wparser A) p l c ps, werases g p -> rej p l c -> says wr g l ps -> says wr (w_opt g) l ps.
Proof.
  intros A g p l c ps E H Hg. rewrite <- (app_nil_r ps). eapply s_or2; [apply we_map, we_attempt, E|eapply r_map, r_attempt, H|now apply s_one, s_one|]. apply s_mute, mu_leaf.
Qed.

(** The elements behind the first, each behind a separator that writes nothing; [d] is a separator without an element, or nothing. *)
Inductive told {A B} (g : wparser A) (p : parser N A) (h : wparser B) (q : parser N B) : list N -> list N -> list nat -> Prop :=
| td_end : forall rest c, rej q rest c -> told g p h q [] rest []
| td_dangling : forall d rest x c ps, acc q d rest x -> rej p rest c -> says wr g rest ps -> told g p h q d rest (map (Nat.add (length d)) ps)
| td_cons : forall d s t rest x v ps qs, acc q d (s ++ t ++ rest) x -> acc p s (t ++ rest) v -> d ++ s <> [] -> says wr g (s ++ t ++ rest) ps ->
    told g p h q t rest qs -> told g p h q (d ++ s ++ t) rest (map (Nat.add (length d)) ps ++ map (Nat.add (length d + length s)) qs).
Lemma s_loop : forall A B (g : wparser A) p (h : wparser B) q, werases g p -> werases h q -> mute h -> forall t rest qs, told g p h q t rest qs ->
  forall fuel pre items all w, length t < fuel ->
  snd (w_loop fuel g (Some h) BUnbounded (pre ++ t ++ rest) (length pre) items all w) = w ++ map (fun i => wr (pre ++ t ++ rest) (length pre + i)) qs.
Proof.
  intros A B g p h q Eg Eh Mh t rest qs H. induction H as [rest c R|d rest x c ps Hd R Sg|d s t rest x v ps qs Hd Hs Ne Sg Ht IH]; intros fuel pre items all w L; (destruct fuel as [|fuel]; [lia|]);
    cbn [w_loop rep_stop].
  - cbn [app]. specialize (Eh (pre ++ rest) (length pre)). specialize (Mh (pre ++ rest) (length pre)). destruct (R pre) as [e F]. rewrite F in Eh.
    destruct (h _ _) as [o w1]. cbn [fst snd] in *. subst o w1. cbn. reflexivity.
  - specialize (Eh (pre ++ d ++ rest) (length pre)). specialize (Mh (pre ++ d ++ rest) (length pre)). rewrite Hd in Eh. destruct (h _ _) as [o w1]. cbn [fst snd] in *. subst o w1.
    specialize (Eg (pre ++ d ++ rest) (length pre + length d)). destruct (@rej_next _ _ p pre d rest c R) as [e F]. rewrite F in Eg.
    pose proof (s_move d Sg pre) as M. destruct (g _ _) as [o w1]. cbn [fst snd] in *. subst o w1. cbn [snd]. now rewrite app_nil_r.
  - repeat rewrite <- app_assoc in *. specialize (Eh (pre ++ d ++ s ++ t ++ rest) (length pre)). specialize (Mh (pre ++ d ++ s ++ t ++ rest) (length pre)). rewrite Hd in Eh. destruct (h _ _) as [o w1]. cbn [fst snd] in *. subst o w1.
    specialize (Eg (pre ++ d ++ s ++ t ++ rest) (length pre + length d)). rewrite (@acc_next _ _ p pre d s (t ++ rest) v Hs) in Eg.
    pose proof (s_move d Sg pre) as M. destruct (g _ _) as [o w1]. cbn [fst snd] in *. subst o w1. rewrite app_nil_r.
    assert (K : 0 < length (d ++ s)) by (destruct (d ++ s); [congruence|cbn; lia]). rewrite !app_length in L. rewrite app_length in K.
    specialize (IH fuel (pre ++ d ++ s) (v :: items) (all + length d + length s) (w ++ map (fun i => wr (pre ++ d ++ s ++ t ++ rest) (length pre + i)) (map (Nat.add (length d)) ps))).
    repeat rewrite <- app_assoc in IH. repeat rewrite app_length in IH. rewrite Nat.add_assoc in IH. rewrite IH by lia. rewrite map_app. do 2 f_equal. rewrite map_map. apply map_ext. intros i. f_equal. lia.
Qed.
Lemma s_many1_sep : forall A B (g : wparser A) p (h : wparser B) q s t rest v ps qs, werases g p -> werases h q -> mute h ->
  acc p s (t ++ rest) v -> says wr g (s ++ t ++ rest) ps -> told g p h q t rest qs ->
  says wr (w_many1_sep g h) (s ++ t ++ rest) (ps ++ map (Nat.add (length s)) qs).
Proof.
  intros A B g p h q s t rest v ps qs Eg Eh Mh Ha Sg Ht pre. unfold w_many1_sep, w_rep. pose proof (Eg (pre ++ s ++ t ++ rest) (length pre)) as E. rewrite Ha in E. specialize (Sg pre).
  destruct (g _ _) as [o w]. cbn [fst snd] in *. subst o w.
  match goal with |- context [w_loop ?f _ _ _ _ _ _ _ ?w] => pose proof (@s_loop A B g p h q Eg Eh Mh t rest qs Ht f (pre ++ s) [v] (length s) w) as L end.
  rewrite <- app_assoc, app_length in L. cbn [rg_end rg_from] in *. destruct (w_loop _ _ _ _ _ _ _ _ _) as [d w']. cbn [snd] in *. rewrite L.
  - rewrite map_app. f_equal. rewrite map_map. apply map_ext. intros i. f_equal. lia.
  - unfold rep_fuel. cbn [bound_count]. rewrite !app_length. lia.
Qed.
Lemma s_many1_sep_no : forall A B (g : wparser A) p (h : wparser B) l c ps, werases g p -> rej p l c -> says wr g l ps -> says wr (w_many1_sep g h) l ps.
Proof.
  intros A B g p h l c ps Eg R Sg pre. unfold w_many1_sep, w_rep. specialize (Eg (pre ++ l) (length pre)). destruct (R pre) as [e F]. rewrite F in Eg. specialize (Sg pre).
  destruct (g _ _) as [o w]. cbn [fst snd] in *. now subst o w.
Qed.
End Says.
