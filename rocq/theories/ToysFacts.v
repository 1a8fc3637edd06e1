(** The interpreter with fuel computes the natural semantics. *)
From Verif Require Import Base Closure Text Toys ToysSpec.
From Coq Require Import ZArith.
Set Implicit Arguments.
Local Open Scope nat_scope.
Local Open Scope list_scope.

(** ** Lookup *)
Lemma find_lookup : forall bs x b v, find_chain bs x = Some b -> hm_get b x = Some v -> lookup bs x v.
Proof.
  induction bs as [|b bs IH]; intros x b' v H G; [discriminate|]. cbn in H. destruct (hm_get b x) eqn:E.
  - injection H as <-. now apply lk_here.
  - apply lk_next; [exact E|]. now apply (IH x b').
Qed.
Lemma lookup_find : forall bs x v, lookup bs x v -> exists b, find_chain bs x = Some b /\ hm_get b x = Some v.
Proof.
  intros bs x v H. induction H as [b bs x v E|b bs x v E H (b' & IH & G)]; cbn; rewrite E.
  - exists b. now split.
  - exists b'. now split.
Qed.
Lemma find_get : forall bs x b, find_chain bs x = Some b -> exists v, hm_get b x = Some v.
Proof.
  induction bs as [|b bs IH]; intros x b' H; [discriminate|]. cbn in H. destruct (hm_get b x) eqn:E; [injection H as <-; eauto|eauto].
Qed.
Lemma find_none : forall bs x, find_chain bs x = None -> forall v, ~ lookup bs x v.
Proof. intros bs x H v L. apply lookup_find in L. destruct L as (b & L & _). congruence. Qed.
Lemma bound_iff : forall s x, bound s x <-> exists b, find_binding (env s) x = Some b.
Proof.
  intros s x. split.
  - intros [v H]. apply lookup_find in H. destruct H as (b & H & _). now exists b.
  - intros [b H]. destruct (find_get _ _ H) as [v G]. exists v. now apply find_lookup with (b := b).
Qed.

(** ** Operators *)
Lemma in_i64_iff : forall z, in_i64 z = true <-> i64 z.
Proof. intros z. unfold in_i64, i64. rewrite andb_true_iff, !Z.leb_le. tauto. Qed.
Lemma wrap_ok : forall z, i64 (wrap z) /\ exists k, wrap z = (z + k * 2 ^ 64)%Z.
Proof.
  intros z. unfold wrap. split.
  - pose proof (Z.mod_pos_bound (z - i64_min) (2 ^ 64) eq_refl) as B. unfold i64. assert (i64_max = (i64_min + 2 ^ 64 - 1)%Z) by reflexivity. lia.
  - exists (- ((z - i64_min) / 2 ^ 64))%Z. pose proof (Z.div_mod (z - i64_min) (2 ^ 64) ltac:(discriminate)). lia.
Qed.
Lemma arith_iff : forall checked exact z, arith checked exact = Some z <-> arith_rel checked exact z.
Proof.
  intros checked exact z. unfold arith, arith_rel. destruct (in_i64 exact) eqn:E.
  - apply in_i64_iff in E. split; [intros H; injection H as <-; split; [exact E|now left]|]. intros [_ [->|(_ & H & _)]]; [reflexivity|contradiction].
  - assert (~ i64 exact) as H by (intros H; apply in_i64_iff in H; congruence). destruct checked.
    + split; [discriminate|]. intros [K [->|(K2 & _)]]; [contradiction|discriminate].
    + destruct (wrap_ok exact) as [W [k Hk]]. split.
      * intros E2. injection E2 as <-. split; [exact W|]. right. split; [reflexivity|]. split; [exact H|now exists k].
      * intros [K [->|(_ & _ & j & Hj)]]; [contradiction|]. f_equal. unfold i64 in *. assert (i64_max = (i64_min + 2 ^ 64 - 1)%Z) as M by reflexivity.
        assert (j = k) as -> by nia. lia.
Qed.
Lemma div_ok_iff : forall a b, div_ok a b = true <-> b <> 0%Z /\ ~ (a = i64_min /\ b = (-1)%Z).
Proof.
  intros a b. unfold div_ok. rewrite andb_true_iff, !negb_true_iff, andb_false_iff, !Z.eqb_neq. split; [lia|].
  intros [H1 H2]. split; [exact H1|]. destruct (Z.eq_dec a i64_min); [right|left]; lia.
Qed.
Lemma binop_iff : forall checked o a b v, binop checked o a b = Some v <-> bin_rel checked o a b v.
Proof.
  intros checked o a b v. split.
  - intros H. unfold binop, int2, omap, as_int, as_bool in H.
    destruct o; destruct a as [x| [|] | |]; try discriminate; destruct b as [y| [|] | |]; try discriminate;
      repeat match goal with
             | H : match ?c with _ => _ end = Some _ |- _ => destruct c eqn:?; try discriminate
             end; injection H as <-;
      try (constructor; apply arith_iff; assumption);
      try (apply div_ok_iff in Heqb; destruct Heqb; now constructor);
      try (now constructor);
      apply b_cmp; rewrite ?Z.ltb_lt, ?Z.leb_le, ?Z.eqb_eq, ?negb_true_iff, ?Z.eqb_neq; lia.
  - intros H. destruct H; try reflexivity; unfold binop, int2, omap; cbn [as_int as_bool].
    1-3: apply arith_iff in H; now rewrite H.
    1-2: rewrite (proj2 (div_ok_iff x y)); [reflexivity|now split].
    destruct o; try contradiction; do 2 f_equal; apply eq_true_iff_eq; rewrite H, ?negb_true_iff, ?Z.ltb_lt, ?Z.leb_le, ?Z.eqb_eq, ?Z.eqb_neq; lia.
Qed.
Lemma binop_none : forall checked o a b, binop checked o a b = None -> forall v, ~ bin_rel checked o a b v.
Proof. intros checked o a b H v K. apply binop_iff in K. congruence. Qed.

Section Adequacy.
Variable checked : bool.
Variable fns : functions.
Notation ev := (ev checked fns).
Notation evs := (evs checked fns).
Notation interpret := (interpret checked fns).

Definition agrees {A} (r : result A) (P : option A -> state -> Prop) : Prop :=
  match r with Ret a s => P (Some a) s | Pan s => P None s | Fuel => True end.

Lemma args_sound : forall go es s, (forall e s, agrees (go e s) (ev e s)) -> agrees (eval_args go es s) (evs es s).
Proof.
  intros go es. induction es as [|e es IH]; intros s H; [apply evs_nil|]. cbn [eval_args]. pose proof (H e s) as K.
  destruct (go e s) as [v s1|s1|]; cbn [bind agrees] in *; [|now apply evs_p1|exact I].
  specialize (IH s1 H). destruct (eval_args go es s1) as [vs s2|s2|]; cbn [bind agrees] in *; [|now apply evs_p2 with (v := v) (s1 := s1)|exact I].
  now apply evs_cons with (s1 := s1).
Qed.
Lemma block_sound : forall go e es v s, (forall e s, agrees (go e s) (ev e s)) -> agrees (eval_block go (e :: es) v s) (ev (EBlock (e :: es)) s).
Proof.
  intros go e es. revert e. induction es as [|e' es IH]; intros e v s H; pose proof (H e s) as K.
  - cbn [eval_block]. destruct (go e s) as [w s1|s1|]; cbn [bind of_opt agrees] in *; [| |exact I]; now apply ev_block1.
  - change (eval_block go (e :: e' :: es) v s) with (bind (go e s) (fun v s1 => eval_block go (e' :: es) (Some v) s1)).
    destruct (go e s) as [w s1|s1|]; cbn [bind agrees] in *; [| |exact I].
    + specialize (IH e' (Some w) s1 H). destruct (eval_block go (e' :: es) (Some w) s1) as [x s2|s2|]; cbn [agrees] in *; [| |exact I];
        apply ev_block with (v := w) (s1 := s1); (discriminate || assumption).
    + apply ev_block_p; [discriminate|exact K].
Qed.
Lemma interpret_sound : forall fuel e s, agrees (interpret fuel e s) (ev e s).
Proof.
  induction fuel as [|fuel IH]; intros e s; [exact I|].
  destruct e as [t|z|b|es|o l r|x|f args|f args|x|e|e|e|c b|c t e|es|x e|e|x e|f ps b|es]; cbn [Toys.interpret];
    try (apply ev_unsupported; constructor).
  - apply ev_string.
  - apply ev_int.
  - pose proof (IH l s) as K. destruct (interpret fuel l s) as [a s1|s1|]; cbn [bind agrees] in *; [|now apply ev_bin_p1|exact I].
    pose proof (IH r s1) as K2. destruct (interpret fuel r s1) as [b s2|s2|]; cbn [bind agrees] in *; [|now apply ev_bin_p2 with (a := a) (s1 := s1)|exact I].
    destruct (binop checked o a b) as [v|] eqn:E; cbn [of_opt agrees].
    + apply ev_bin with (a := a) (b := b) (s1 := s1); try assumption. now apply binop_iff.
    + apply ev_bin_p with (a := a) (b := b) (s1 := s1); try assumption. now apply binop_none.
  - destruct (find_binding (env s) x) as [b|] eqn:E; cbn [agrees].
    + destruct (find_get _ _ E) as [v G]. rewrite G. cbn. apply ev_symbol. now apply find_lookup with (b := b).
    + apply ev_symbol_p. intros H. apply bound_iff in H. destruct H as [b H]. congruence.
  - destruct (hm_get fns f) as [[ps body]|] eqn:Ef; [|now apply ev_call_u].
    pose proof (args_sound (interpret fuel) args s IH) as K. destruct (eval_args (interpret fuel) args s) as [vs s1|s1|]; cbn [bind agrees] in *; [|now apply ev_call_p with (ps := ps) (body := body)|exact I].
    unfold bind_params. destruct (Nat.ltb_spec (length vs) (length ps)) as [L|L]; cbn [bind agrees].
    + now apply ev_call_few with (ps := ps) (body := body) (vs := vs).
    + pose proof (IH body (push_frame s1)) as K2. destruct (interpret fuel body (push_frame s1)) as [v s2|s2|]; cbn [bind agrees] in *; [| |exact I].
      * now apply ev_call with (ps := ps) (body := body) (vs := vs).
      * now apply ev_call_pb with (ps := ps) (body := body) (vs := vs) (s1 := s1).
  - destruct (hm_get fns f) as [[ps body]|] eqn:Ef; [|now apply ev_lab_u].
    pose proof (args_sound (interpret fuel) (map snd args) s IH) as K. destruct (eval_args (interpret fuel) (map snd args) s) as [vs s1|s1|]; cbn [bind agrees] in *; [|now apply ev_lab_p with (ps := ps) (body := body)|exact I].
    pose proof (IH body (push_frame s1)) as K2. destruct (interpret fuel body (push_frame s1)) as [v s2|s2|]; cbn [bind agrees] in *; [| |exact I].
    + now apply ev_lab with (ps := ps) (body := body) (vs := vs).
    + now apply ev_lab_pb with (ps := ps) (body := body) (vs := vs) (s1 := s1).
  - pose proof (IH e s) as K. destruct (interpret fuel e s) as [v s1|s1|]; cbn [bind agrees] in *; [now apply ev_println|now apply ev_println_p|exact I].
  - pose proof (IH c s) as K. destruct (interpret fuel c s) as [v s1|s1|]; cbn [bind agrees] in *; [|now apply ev_while_p1|exact I].
    destruct v as [z|t|t|vs]; cbn [as_bool of_opt bind agrees]; [apply (ev_while_p _ K); discriminate| |apply (ev_while_p _ K); discriminate ..].
    destruct t; [|now apply ev_while_f].
    pose proof (IH b s1) as K2. destruct (interpret fuel b s1) as [w s2|s2|]; cbn [bind agrees] in *; [|now apply ev_while_pb with (s1 := s1)|exact I].
    pose proof (IH (EWhile c b) s2) as K3. destruct (interpret fuel (EWhile c b) s2) as [x s3|s3|]; cbn [agrees] in *; [| |exact I];
      now apply ev_while_t with (s1 := s1) (v := w) (s2 := s2).
  - pose proof (IH c s) as K. destruct (interpret fuel c s) as [v s1|s1|]; cbn [bind agrees] in *; [|now apply ev_if_p1|exact I].
    destruct v as [z|w|w|vs]; cbn [as_bool of_opt bind agrees]; [apply (ev_if_p _ _ K); discriminate| |apply (ev_if_p _ _ K); discriminate ..].
    destruct w.
    + pose proof (IH t s1) as K2. destruct (interpret fuel t s1); cbn [agrees] in *; [| |exact I]; now apply ev_if_t with (s1 := s1).
    + destruct e as [e|]; [|now apply ev_if_n].
      pose proof (IH e s1) as K2. destruct (interpret fuel e s1); cbn [agrees] in *; [| |exact I]; now apply ev_if_f with (s1 := s1).
  - destruct es as [|e es]; [apply ev_block0|]. apply block_sound. exact IH.
  - pose proof (IH e s) as K. destruct (interpret fuel e s) as [v s1|s1|]; cbn [bind agrees] in *; [|now apply ev_assign_p1|exact I].
    unfold assign. destruct (find_binding (env s) x) as [b|] eqn:E.
    + destruct (hm_get (env_bindings (env s1)) x) as [w|] eqn:G; cbn [agrees].
      * apply ev_assign; [exact K|]. right. now exists w.
      * apply ev_assign_p with (v := v); [exact K|apply bound_iff; now exists b|]. intros [w H]. congruence.
    + cbn [agrees]. apply ev_assign; [exact K|]. left. intros H. apply bound_iff in H. destruct H as [b H]. congruence.
  - pose proof (IH e s) as K. destruct (interpret fuel e s); cbn [agrees] in *; [| |exact I]; now apply ev_paren.
Qed.

Definition answer {A} (r : option A) (s : state) : result A := match r with Some a => Ret a s | None => Pan s end.
Ltac at_fuel n :=
  repeat match goal with
  | H : exists n, forall m, n <= m -> _ |- _ => let k := fresh "k" in let K := fresh "K" in destruct H as [k K]
  end.
Lemma block_cons : forall go es v w s, es <> [] -> eval_block go es v s = eval_block go es w s.
Proof. intros go [|e' es] v w s H; [congruence|reflexivity]. Qed.
Lemma interpret_complete :
  (forall e s r s', ev e s r s' -> exists n, forall m, n <= m -> interpret m e s = answer r s') /\
  (forall es s r s', evs es s r s' -> exists n, forall m, n <= m -> eval_args (interpret m) es s = answer r s').
Proof.
  apply (@ev_ind2 checked fns (fun e s r s' _ => exists n, forall m, n <= m -> interpret m e s = answer r s')
    (fun es s r s' _ => exists n, forall m, n <= m -> eval_args (interpret m) es s = answer r s')).
  all: intros; at_fuel n.
  all: match goal with
       | K1 : forall m, ?a <= m -> _, K2 : forall m, ?b <= m -> _, K3 : forall m, ?c <= m -> _ |- _ => exists (S (a + b + c))
       | K1 : forall m, ?a <= m -> _, K2 : forall m, ?b <= m -> _ |- _ => exists (S (a + b))
       | K1 : forall m, ?a <= m -> _ |- _ => exists (S a)
       | _ => exists 1
       end; intros [|m] Hm; [lia|].
  all: repeat match goal with
       | K1 : forall m, ?a <= m -> interpret m ?e ?s = _ |- _ =>
           match goal with Hm : _ <= S ?m |- _ => pose proof (K1 m ltac:(lia)); pose proof (K1 (S m) ltac:(lia)) end; clear K1
       | K1 : forall m, ?a <= m -> eval_args (interpret m) ?e ?s = _ |- _ =>
           match goal with Hm : _ <= S ?m |- _ => pose proof (K1 m ltac:(lia)); pose proof (K1 (S m) ltac:(lia)) end; clear K1
       end.
  all: try (match goal with H : unsupported _ |- _ => destruct H; reflexivity end).
  all: match goal with |- interpret (S _) ?e _ = _ => cbn [Toys.interpret] | |- eval_args _ _ _ = _ => cbn [eval_args] end.
  all: repeat match goal with
       | H : hm_get fns _ = _ |- _ => rewrite H; clear H
       | H : interpret ?m ?e ?s = answer _ _ |- context[Toys.interpret _ _ ?m ?e ?s] => rewrite H; cbn [answer bind of_opt as_bool]
       | H : eval_args (interpret ?m) ?e ?s = answer _ _ |- context[eval_args (Toys.interpret _ _ ?m) ?e ?s] => rewrite H; cbn [answer bind of_opt as_bool]
       end.
  all: try reflexivity.
  all: try (match goal with |- context[push_frame ?s1] => change (push_frame s1) with (fresh s1) end).
  all: unfold bind_params; repeat match goal with
       | H : length ?ps <= length ?vs |- context[length ?vs <? length ?ps] => rewrite (proj2 (Nat.ltb_ge (length vs) (length ps)) H); cbn [bind]
       | H : length ?vs < length ?ps |- context[length ?vs <? length ?ps] => rewrite (proj2 (Nat.ltb_lt (length vs) (length ps)) H); cbn [bind]
       | H : interpret ?m ?e ?s = answer _ _ |- context[Toys.interpret _ _ ?m ?e ?s] => rewrite H; cbn [answer bind of_opt as_bool]
       end; try reflexivity.
  all: try match goal with H : (forall b, ?v <> VBool b) |- context[as_bool ?v] => destruct v as [| bb | |]; cbn [as_bool of_opt bind]; [reflexivity|now destruct (H bb)|reflexivity..] end.
  - match goal with H : lookup _ _ _ |- _ => apply lookup_find in H; destruct H as (fb & Hl & Hg) end.
    unfold find_binding. unfold chain in Hl. rewrite Hl, Hg. reflexivity.
  - destruct (find_binding (env s) x) eqn:E; [|reflexivity]. exfalso. apply n. apply bound_iff. eauto.
  - match goal with H : bin_rel _ _ _ _ _ |- _ => apply binop_iff in H; rewrite H end. reflexivity.
  - destruct (binop checked o a b) eqn:E; [|reflexivity]. apply binop_iff in E. now match goal with H : forall v, ~ _ |- _ => apply H in E end.
  - unfold assign. match goal with H : ~ bound s x \/ bound_here s1 x |- _ => destruct H as [Hb|[w Hb]] end.
    + destruct (find_binding (env s) x) eqn:E; [|reflexivity]. exfalso. apply Hb, bound_iff. eauto.
    + rewrite Hb. now destruct (find_binding (env s) x).
  - unfold assign. match goal with H : bound s x |- _ => apply bound_iff in H; destruct H as [fb Hf]; rewrite Hf end.
    destruct (hm_get (env_bindings (env s1)) x) eqn:E; [|reflexivity]. exfalso.
    match goal with H : ~ bound_here _ _ |- _ => apply H end. now exists v0.
  - cbn [eval_block]. match goal with H : interpret m ?e ?s = _ |- context[Toys.interpret _ _ m ?e ?s] => rewrite H end. now destruct r.
  - cbn [eval_block]. match goal with H : interpret m e s = _ |- _ => rewrite H end. cbn [answer bind].
    match goal with H : interpret (S m) (EBlock es) s1 = _ |- _ => rewrite <- H end. cbn [Toys.interpret]. now apply block_cons.
  - cbn [eval_block]. match goal with H : interpret m e s = _ |- _ => rewrite H end. reflexivity.
Qed.

(** Consequences. *)
Lemma ev_det : forall e s r1 s1 r2 s2, ev e s r1 s1 -> ev e s r2 s2 -> r1 = r2 /\ s1 = s2.
Proof.
  intros e s r1 s1 r2 s2 H1 H2. apply interpret_complete in H1, H2. destruct H1 as [n1 H1], H2 as [n2 H2].
  specialize (H1 (n1 + n2) ltac:(lia)). specialize (H2 (n1 + n2) ltac:(lia)). rewrite H1 in H2. destruct r1, r2; cbn in H2; inversion H2; now split.
Qed.
Lemma interpret_ev : forall e s r s', ev e s r s' <-> exists fuel, interpret fuel e s = answer r s'.
Proof.
  intros e s r s'. split.
  - intros H. apply interpret_complete in H. destruct H as [n H]. exists n. now apply H.
  - intros [fuel H]. pose proof (interpret_sound fuel e s) as K. rewrite H in K. destruct r; exact K.
Qed.
Lemma interpret_more : forall fuel fuel' e s, interpret fuel e s <> Fuel -> fuel <= fuel' -> interpret fuel' e s = interpret fuel e s.
Proof.
  assert (A : forall (go go' : expr -> state -> result value), (forall e s, go e s <> Fuel -> go' e s = go e s) ->
            (forall es s, eval_args go es s <> Fuel -> eval_args go' es s = eval_args go es s) /\
            (forall es v s, eval_block go es v s <> Fuel -> eval_block go' es v s = eval_block go es v s)).
  { intros go go' H. split.
    - induction es as [|e es IH]; intros s K; [reflexivity|]. cbn [eval_args] in *. specialize (H e s).
      destruct (go e s) as [v s1|s1|]; cbn [bind] in *; [|now rewrite H|congruence]. rewrite H by discriminate. cbn [bind]. specialize (IH s1).
      destruct (eval_args go es s1); cbn [bind] in *; [now rewrite IH ..|congruence].
    - induction es as [|e es IH]; intros v s K; [reflexivity|]. cbn [eval_block] in *. specialize (H e s).
      destruct (go e s) as [w s1|s1|]; cbn [bind] in *; [|now rewrite H|congruence]. rewrite H by discriminate. cbn [bind]. now apply IH. }
  induction fuel as [|fuel IH]; intros fuel' e s H L; [now destruct H|]. destruct fuel' as [|fuel']; [lia|].
  assert (G : forall e s, interpret fuel e s <> Fuel -> interpret fuel' e s = interpret fuel e s) by (intros; apply IH; [assumption|lia]).
  destruct (A _ _ G) as [GA GB]. clear IH A.
  destruct e as [t|z|b|es|o l r|x|f args|f args|x|e|e|e|c b|c t e|es|x e|e|x e|f ps b|es]; cbn [Toys.interpret] in *; try reflexivity;
    repeat match goal with
    | H : (match ?c with _ => _ end) <> Fuel |- _ => destruct c eqn:?; cbn [bind] in *; try reflexivity
    | H : bind (interpret fuel ?e ?s) _ <> Fuel |- _ => let K := fresh "K" in pose proof (G e s) as K; destruct (interpret fuel e s) eqn:?; cbn [bind] in *;
        [rewrite K by discriminate; cbn [bind]; clear K|rewrite K by discriminate; reflexivity|congruence]
    | H : bind (eval_args (interpret fuel) ?e ?s) _ <> Fuel |- _ => let K := fresh "K" in pose proof (GA e s) as K; destruct (eval_args (interpret fuel) e s) eqn:?; cbn [bind] in *;
        [rewrite K by discriminate; cbn [bind]; clear K|rewrite K by discriminate; reflexivity|congruence]
    | H : bind (of_opt ?o _) _ <> Fuel |- _ => destruct o; cbn [of_opt bind] in *; [|reflexivity]
    | H : bind (bind_params ?a ?b ?c) _ <> Fuel |- _ => destruct (bind_params a b c) eqn:?; cbn [bind] in *; [|reflexivity|congruence]
    | H : interpret fuel ?e ?s <> Fuel |- _ => now apply G
    | H : (if ?b then _ else _) <> Fuel |- _ => destruct b; try reflexivity
    end; try reflexivity.
  now apply GB.
Qed.
End Adequacy.
