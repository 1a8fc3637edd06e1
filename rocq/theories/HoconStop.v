(** Loading ends: more stack never changes a result of resolution, and without cycles of references some stack is enough. *)
From Coq Require Import Relations.
From Verif Require Import Base Core Comb Closure RepFacts LitFacts Hoare Runs Weak Agree Text Json JsonSpec JsonFacts Hocon HoconFacts HoconParse HoconLookup HoconResolve HoconRefs.
Set Implicit Arguments.
Local Open Scope string_scope.
Local Open Scope nat_scope.
Local Open Scope list_scope.

Section Stop.
Variable D : Type.
Variable dec : list N -> option D.
Variable env files : list N -> option (list N).
Notation cv := (cv D).
Notation key := (list N).
Notation resolve := (resolve dec env files).

(** [y] is [x] unless [x] ran out of stack. *)
Definition below {A} (x y : rs A) : Prop := x <> RDiverge -> y = x.
Lemma below_refl : forall A (x : rs A), below x x.
Proof. intros A x _. reflexivity. Qed.
Lemma below_bind : forall A B (x y : rs A) (f g : A -> rs B), below x y -> (forall a, below (f a) (g a)) -> below (rbind x f) (rbind y g).
Proof. intros A B x y f g H1 H2 H. destruct x as [a| |]; cbn in *; [rewrite H1 by discriminate; now apply H2|now rewrite H1|congruence]. Qed.
Lemma below_rmap : forall A B (f g : A -> rs B) l, (forall a, below (f a) (g a)) -> below (rmap f l) (rmap g l).
Proof.
  intros A B f g l H. induction l as [|x l IH]; [apply below_refl|]. cbn [rmap]. apply below_bind; [apply H|]. intros y. apply below_bind; [exact IH|]. intros ys. apply below_refl.
Qed.
Lemma below_step : forall (f g : cv -> option cv -> rs cv), (forall v s, below (f v s) (g v s)) ->
  forall v s, below (resolve_step dec env files f v s) (resolve_step dec env files g v s).
Proof.
  intros f g H v s.
  assert (P : forall t, below (parse_from_string_with dec f t) (parse_from_string_with dec g t)).
  { intros t. unfold parse_from_string_with. destruct (hocon_p dec t 0) as [vs k|e cm| |]; try apply below_refl.
    apply below_bind; [|intros c; apply below_bind; [apply H|intros; apply below_refl]].
    unfold resolve_stage0. destruct vs as [|v0 vs]; [apply below_refl|]. apply below_bind; [apply H|]. intros a. apply below_bind; [|intros; apply below_refl].
    apply below_rmap. intros. apply H. }
  destruct v as [|b|st|d|d u|l|m|o l|o path ms|me fi|p v]; destruct s as [src|]; cbn [resolve_step]; try apply below_refl.
  - apply below_bind; [apply below_rmap; intros; apply H|intros; apply below_refl].
  - apply below_bind; [apply below_rmap; intros; apply below_bind; [apply H|intros; apply below_refl]|intros; apply below_refl].
  - apply below_bind; [apply below_rmap; intros; apply below_bind; [apply H|intros; apply below_refl]|intros; apply below_refl].
  - apply below_bind; [apply below_rmap; intros; apply H|intros; apply below_refl].
  - apply below_bind; [apply below_refl|]. intros o'. destruct (match o' with Some c => Some c | None => _ end); [apply H|apply below_refl].
  - apply below_bind; [apply P|intros; apply below_refl].
  - apply below_bind; [apply P|intros; apply below_refl].
  - destruct (to_vec (CLink p v)) as [|h t]; [apply below_refl|]. apply below_bind; [apply H|]. intros h'.
    apply below_bind; [apply below_rmap; intros; apply H|intros; apply below_refl].
Qed.
Lemma resolve_below : forall n m v s, n <= m -> below (resolve n v s) (resolve m v s).
Proof.
  induction n as [|n IH]; intros m v s Hm; [intros H; now destruct H|]. destruct m as [|m]; [lia|]. cbn [Hocon.resolve].
  apply below_step. intros v' s'. apply IH. lia.
Qed.
Lemma load_below : forall n m t, n <= m -> below (parse_from_string dec env files n t) (parse_from_string dec env files m t).
Proof.
  intros n m t Hm. unfold parse_from_string, parse_from_string_with. destruct (hocon_p dec t 0) as [vs k|e cm| |]; try apply below_refl.
  apply below_bind; [|intros c; apply below_bind; [now apply resolve_below|intros; apply below_refl]].
  unfold resolve_stage0. destruct vs as [|v0 vs]; [apply below_refl|]. apply below_bind; [now apply resolve_below|]. intros a. apply below_bind; [|intros; apply below_refl].
  apply below_rmap. intros. now apply resolve_below.
Qed.

(** *** Without cycles *)
Definition stops (src v : cv) : Prop := exists n, resolve n v (Some src) <> RDiverge.
Lemma bind_stops : forall A B (x : rs A) (f : A -> rs B), x <> RDiverge -> (forall a, x = ROk a -> f a <> RDiverge) -> rbind x f <> RDiverge.
Proof. intros A B [a| |] f H1 H2; cbn; [now apply H2|discriminate|congruence]. Qed.
Lemma stops_more : forall src v n m, n <= m -> resolve n v (Some src) <> RDiverge -> resolve m v (Some src) <> RDiverge.
Proof. intros src v n m Hm H. now rewrite (@resolve_below n m v (Some src) Hm H). Qed.
Lemma stops_all : forall src l, Forall (stops src) l -> exists n, rmap (fun e => resolve n e (Some src)) l <> RDiverge.
Proof.
  intros src l H. induction H as [|v l [n E] H [n' IH]]; [now exists 0|]. exists (n + n'). cbn [rmap].
  apply bind_stops; [eapply stops_more; [|exact E]; lia|]. intros y _. apply bind_stops; [|discriminate].
  assert (B : below (rmap (fun e => resolve n' e (Some src)) l) (rmap (fun e => resolve (n + n') e (Some src)) l)) by (apply below_rmap; intros; apply resolve_below; lia).
  now rewrite (B IH).
Qed.
Lemma refs_stop : forall src v, conf v -> (forall o path ms, ref_in (path, ms, o) v -> stops src (CRef o path ms)) -> stops src v /\ Forall (stops src) (to_vec v).
Proof.
  intros src v. assert (NL : forall v : cv, no_link v -> to_vec v = [v]) by (intros w H; destruct w; try reflexivity; now destruct (H w1 w2)).
  assert (One : forall v, no_link v -> stops src v -> stops src v /\ Forall (stops src) (to_vec v)).
  { intros w Hw H. split; [exact H|]. rewrite NL by exact Hw. now constructor. }
  induction v as [|b|s|d|d u|l Hl|m Hm|o l Ho Hl|o path ms Ho|me f|p v Hp Hv] using cv_ind2; intros C H; inv C;
    try (apply One; [discriminate|]; now exists 1).
  - apply One; [discriminate|]. assert (A : Forall (stops src) l).
    { apply Forall_forall. intros w Hw. rewrite Forall_forall in Hl, H1. apply (Hl w Hw (H1 w Hw)). intros o path ms Hr. apply H. eapply ri_arr; eassumption. }
    destruct (stops_all A) as (n & E). exists (S n). cbn [Hocon.resolve resolve_step]. apply bind_stops; [exact E|discriminate].
  - apply One; [discriminate|]. assert (A : Forall (stops src) (map snd m)).
    { apply Forall_forall. intros w Hw. apply in_map_iff in Hw. destruct Hw as ([k w'] & <- & Hw). rewrite Forall_forall in Hm, H1. cbn.
      apply (Hm (k, w') Hw (H1 (k, w') Hw)). intros o path ms Hr. apply H. eapply ri_obj; eassumption. }
    destruct (stops_all A) as (n & E). exists (S n). cbn [Hocon.resolve resolve_step]. apply bind_stops; [|discriminate]. clear - E.
    revert E. induction m as [|[k w] m IH]; intros E; [discriminate|]. cbn [map rmap fst snd] in *.
    destruct (resolve n w (Some src)) as [y| |]; cbn [rbind] in *; [|discriminate|congruence].
    destruct (rmap _ (map snd m)) as [ys| |]; cbn [rbind] in *; [|apply bind_stops; [|discriminate]|congruence]; [apply bind_stops; [|discriminate]|]; now apply IH.
  - apply One; [discriminate|]. apply H. now apply ri_self.
  - destruct (Hp H2) as [_ P]; [intros; apply H; now apply ri_prev|]. destruct (Hv H3) as [V _]; [intros; apply H; now apply ri_value|].
    assert (A : Forall (stops src) (to_vec (CLink p v))).
    { change (to_vec (CLink p v)) with (to_vec p ++ [v]). apply Forall_app. split; [exact P|now constructor]. }
    split; [|exact A]. destruct (stops_all A) as (n & E). exists (S n). cbn [Hocon.resolve resolve_step].
    destruct (to_vec (CLink p v)) as [|h t]; [discriminate|]. cbn [rmap] in E. destruct (resolve n h (Some src)) as [y| |]; cbn [rbind] in *; [|discriminate|congruence].
    destruct (rmap _ t); cbn [rbind] in *; [discriminate|discriminate|congruence].
Qed.
Lemma acc_stops : forall src r, conf src -> Acc (needs env src) r -> stops src (CRef (snd r) (fst (fst r)) (snd (fst r))).
Proof.
  intros src r Hs A. induction A as [r A IH]. destruct r as [[path ms] o]. cbn [fst snd].
  assert (G : get_value src path <> RDiverge) by (apply get_returns; lia).
  destruct (get_value src path) as [[c|]| |] eqn:E; [| | |congruence].
  - assert (T : target env src (path, ms, o) c) by now left. destruct (conf_target Hs T) as [Cc _]. destruct (@refs_stop src c Cc) as [[n X] _].
    + intros o' path' ms' Hr. apply (IH (path', ms', o')). now exists c.
    + exists (S n). cbn [Hocon.resolve resolve_step]. rewrite E. exact X.
  - exists 2. cbn [Hocon.resolve resolve_step]. rewrite E. cbn [rbind]. destruct (env path); [discriminate|]. destruct ms, o; discriminate.
  - exists 1. cbn [Hocon.resolve resolve_step]. rewrite E. discriminate.
Qed.
Lemma acyclic_stops : forall src v, conf src -> conf v -> (forall r, ref_in r v -> Acc (needs env src) r) -> stops src v.
Proof.
  intros src v Hs Hv H. apply (@refs_stop src v Hv). intros o path ms Hr. exact (acc_stops Hs (H _ Hr)).
Qed.
End Stop.
