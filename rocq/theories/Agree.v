(** Recursive parsers are modelled with fuel.  Two parsers agree below [n] when they give the same result wherever fewer than
    [n] elements remain. *)
From Verif Require Import Base Core Comb Closure RepFacts LitFacts Hoare.
Set Implicit Arguments.

Definition agree {I A} (n : nat) (p q : parser I A) : Prop :=
  forall inp off, length inp - off < n -> p inp off = q inp off.

Section Agree.
Context {I : Type}.
Lemma ag_refl : forall A n (p : parser I A), agree n p p.
Proof. intros A n p inp off _. reflexivity. Qed.
Lemma ag_less : forall A n m (p q : parser I A), agree n p q -> m <= n -> agree m p q.
Proof. intros A n m p q H Hm inp off Hl. apply H. lia. Qed.
Lemma ag_map : forall A B n (p q : parser I A) (f : A -> B), agree n p q -> agree n (p_map p f) (p_map q f).
Proof. intros A B n p q f H inp off Hl. unfold p_map. now rewrite H. Qed.
Lemma ag_map_res : forall A B E n (p q : parser I A) (f : A -> B + E), agree n p q -> agree n (p_map_res p f) (p_map_res q f).
Proof. intros A B E n p q f H inp off Hl. unfold p_map_res. now rewrite H. Qed.
Lemma ag_lazy : forall A n (f g : unit -> parser I A), agree n (f tt) (g tt) -> agree n (p_lazy f) (p_lazy g).
Proof. intros A n f g H. exact H. Qed.
Lemma ag_name : forall A n (p q : parser I A) nm, agree n p q -> agree n (p_name p nm) (p_name q nm).
Proof. intros A n p q nm H inp off Hl. unfold p_name. now rewrite H. Qed.
Lemma ag_attempt : forall A n (p q : parser I A), agree n p q -> agree n (p_attempt p) (p_attempt q).
Proof. intros A n p q H inp off Hl. unfold p_attempt. now rewrite H. Qed.
Lemma ag_or : forall A n (p q p' q' : parser I A), agree n p p' -> agree n q q' -> agree n (p_or p q) (p_or p' q').
Proof. intros A n p q p' q' H1 H2 inp off Hl. unfold p_or. now rewrite H1, H2. Qed.
Lemma ag_opt : forall A n (p q : parser I A), agree n p q -> agree n (p_opt p) (p_opt q).
Proof. intros A n p q H. apply ag_or; [|apply ag_refl]. now apply ag_map, ag_attempt. Qed.
Lemma ag_and : forall A B n (p p' : parser I A) (q q' : parser I B),
  agree n p p' -> agree n q q' -> agree n (p_and p q) (p_and p' q').
Proof.
  intros A B n p p' q q' H1 H2 inp off Hl. unfold p_and. rewrite H1 by exact Hl.
  destruct (p' inp off); try reflexivity. now rewrite H2 by lia.
Qed.
Lemma ag_skip_left : forall A B n (p p' : parser I A) (q q' : parser I B),
  agree n p p' -> agree n q q' -> agree n (p_skip_left p q) (p_skip_left p' q').
Proof.
  intros A B n p p' q q' H1 H2 inp off Hl. unfold p_skip_left. rewrite H1 by exact Hl.
  destruct (p' inp off); try reflexivity. now rewrite H2 by lia.
Qed.
Lemma ag_skip_right : forall A B n (p p' : parser I A) (q q' : parser I B),
  agree n p p' -> agree n q q' -> agree n (p_skip_right p q) (p_skip_right p' q').
Proof.
  intros A B n p p' q q' H1 H2 inp off Hl. unfold p_skip_right. rewrite H1 by exact Hl.
  destruct (p' inp off); try reflexivity. now rewrite H2 by lia.
Qed.
Lemma ag_surround : forall A B C n (l l' : parser I A) (p p' : parser I B) (r r' : parser I C),
  agree n l l' -> agree n p p' -> agree n r r' -> agree n (p_surround l p r) (p_surround l' p' r').
Proof. intros. unfold p_surround. now repeat (apply ag_skip_left || apply ag_skip_right). Qed.
Lemma ag_flat_map : forall A B n (p p' : parser I A) (f g : A -> parser I B),
  agree n p p' -> (forall a, agree n (f a) (g a)) -> agree n (p_flat_map p f) (p_flat_map p' g).
Proof.
  intros A B n p p' f g H1 H2 inp off Hl. unfold p_flat_map. rewrite H1 by exact Hl.
  destruct (p' inp off); try reflexivity. now rewrite H2 by lia.
Qed.
Lemma ag_repeat_sep : forall A B n (p p' : parser I A) r (sep : option (parser I B)),
  agree n p p' -> agree n (p_repeat_sep p r sep) (p_repeat_sep p' r sep).
Proof.
  intros A B n p p' r sep H inp off Hl. unfold p_repeat_sep. generalize (rep_fuel (rg_end r) inp off). intros fuel.
  assert (L : forall fuel cur items al, off <= cur -> rep_loop fuel p sep (rg_end r) inp cur items al = rep_loop fuel p' sep (rg_end r) inp cur items al).
  { clear fuel. intros fuel. induction fuel as [|fuel IH]; intros cur items al Hc; [reflexivity|]. cbn [rep_loop].
    destruct (rep_stop (rg_end r) (length items)); [reflexivity|]. destruct sep as [s|].
    - destruct (s inp cur) as [w m|e c| |]; try reflexivity. rewrite H by lia. destruct (p' inp (cur + m)); try reflexivity. apply IH. lia.
    - rewrite H by lia. destruct (p' inp cur); try reflexivity. apply IH. lia. }
  unfold repeat_sep_fuel. rewrite H by exact Hl. destruct (p' inp off); try reflexivity. now rewrite L by lia.
Qed.
Lemma ag_chain_left1 : forall A n (p p' : parser I A) op, agree n p p' -> agree n (p_chain_left1 p op) (p_chain_left1 p' op).
Proof.
  intros A n p p' op H. unfold p_chain_left1. apply ag_flat_map; [exact H|]. intros x inp off Hl. unfold p_rest_left1.
  generalize (chain_fuel inp off). intros fuel. revert x off Hl.
  induction fuel as [|fuel IH]; intros x off Hl; [reflexivity|]. cbn [rest_left1_fuel].
  unfold p_flat_map, p_or, p_map, p_successful in *. destruct (op inp off) as [f k|e c| |]; try reflexivity.
  rewrite H by lia. destruct (p' inp (off + k)); try reflexivity. now rewrite IH by lia.
Qed.

(** After a parser that consumes something one element less remains. *)
Definition consumes {A} (p : parser I A) : Prop := forall inp off v n, p inp off = Success v n -> 0 < n /\ off + n <= length inp.
Lemma ag_skip_left_S : forall A B n (p : parser I A) (q q' : parser I B),
  consumes p -> agree n q q' -> agree (S n) (p_skip_left p q) (p_skip_left p q').
Proof.
  intros A B n p q q' H1 H2 inp off Hl. unfold p_skip_left.
  destruct (p inp off) eqn:E; try reflexivity. apply H1 in E. now rewrite H2 by lia.
Qed.
Lemma ag_and_S : forall A B n (p : parser I A) (q q' : parser I B),
  consumes p -> agree n q q' -> agree (S n) (p_and p q) (p_and p q').
Proof.
  intros A B n p q q' H1 H2 inp off Hl. unfold p_and.
  destruct (p inp off) eqn:E; try reflexivity. apply H1 in E. now rewrite H2 by lia.
Qed.
Lemma ag_surround_S : forall A B C n (l : parser I A) (p p' : parser I B) (r : parser I C),
  consumes l -> agree n p p' -> agree (S n) (p_surround l p r) (p_surround l p' r).
Proof. intros. unfold p_surround. apply ag_skip_left_S; [assumption|]. apply ag_skip_right; [assumption|apply ag_refl]. Qed.
Lemma hoare_consumes : forall A (p : parser I A) Q, hoare p Q -> (forall v s, Q v s -> s <> []) ->
  (forall inp off, length inp < off -> forall v n, p inp off <> Success v n) -> consumes p.
Proof.
  intros A p Q H Hn Hp inp off v n E. destruct (Nat.le_gt_cases off (length inp)) as [Ho|Ho].
  - destruct (h_success H Ho E) as [L Hq]. split; [|exact L]. apply Hn in Hq. destruct n; [cbn in Hq; congruence|lia].
  - now apply Hp in E.
Qed.
(** A hoare triple for the parser with fuel, from one for a parser that agrees with it. *)
Lemma agree_at : forall A n (p q : parser I A) inp off, agree n p q -> length inp < n -> p inp off = q inp off.
Proof. intros A n p q inp off H Hl. apply H. lia. Qed.
End Agree.
