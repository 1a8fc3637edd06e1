(** C54-C56, C61-C66: the toys interpreter. *)
From Verif Require Import Base Closure Text Toys ToysSpec ToysFacts.
From Coq Require Import ZArith.
Set Implicit Arguments.
Local Open Scope string_scope.
Local Open Scope nat_scope.
Local Open Scope list_scope.

(** The interpreter, given enough fuel, returns [r = Some v] or panics [r = None] in state [s']. *)
Definition runs (checked : bool) (fns : functions) (e : expr) (s : state) (r : option value) (s' : state) : Prop :=
  exists fuel, interpret checked fns fuel e s = answer r s'.
Lemma runs_ev : forall checked fns e s r s', runs checked fns e s r s' <-> ev checked fns e s r s'.
Proof. intros. symmetry. apply interpret_ev. Qed.
(** Arguments are evaluated from left to right. *)
Inductive runs_all (checked : bool) (fns : functions) : list expr -> state -> list value -> state -> Prop :=
| ra_nil : forall s, runs_all checked fns [] s [] s
| ra_cons : forall e es v vs s s1 s2, runs checked fns e s (Some v) s1 -> runs_all checked fns es s1 vs s2 -> runs_all checked fns (e :: es) s (v :: vs) s2.
Lemma runs_all_evs : forall checked fns es s vs s', runs_all checked fns es s vs s' <-> evs checked fns es s (Some vs) s'.
Proof.
  intros checked fns. induction es as [|e es IH]; intros s vs s'; split; intros H; inv H; try constructor.
  - apply evs_cons with (s1 := s1); [now apply runs_ev|now apply IH].
  - apply ra_cons with (s1 := s1); [now apply runs_ev|now apply IH].
Qed.

(** ** C54 *)
Theorem C54_params_bound_refuted : forall checked, exists fns f body p v s,
  hm_get fns f = Some ([p], body) /\ body = ESymbol p /\ runs checked fns (ECall f [EInt v]) s None (fresh s) /\
  runs checked fns (ELabelled f [(p, EInt v)]) s None (fresh s).
Proof.
  intros checked. exists [(bs "f", ([bs "n"], ESymbol (bs "n")))], (bs "f"), (ESymbol (bs "n")), (bs "n"), 7%Z, start.
  split; [reflexivity|]. split; [reflexivity|]. split; exists 5; reflexivity.
Qed.
(** The values of the arguments never matter: only their number and what their evaluation does to the state. *)
Theorem C54_arguments_ignored_partial : forall checked fns f ps body args args' vs vs' s s1 r s2,
  hm_get fns f = Some (ps, body) -> length ps <= length args -> length ps <= length args' ->
  runs_all checked fns args s vs s1 -> runs_all checked fns args' s vs' s1 ->
  (runs checked fns (ECall f args) s r s2 <-> runs checked fns (ECall f args') s r s2).
Proof.
  assert (L : forall checked fns es s vs s', runs_all checked fns es s vs s' -> length vs = length es).
  { intros checked fns es s vs s' H. induction H; cbn; congruence. }
  assert (H : forall checked fns f ps body args args' vs vs' s s1 r s2,
    hm_get fns f = Some (ps, body) -> length ps <= length args -> length ps <= length args' ->
    runs_all checked fns args s vs s1 -> runs_all checked fns args' s vs' s1 ->
    runs checked fns (ECall f args) s r s2 -> runs checked fns (ECall f args') s r s2).
  { intros checked fns f ps body args args' vs vs' s s1 r s2 Hf L1 L2 A1 A2 [fuel R]. pose proof (L _ _ _ _ _ _ A1). pose proof (L _ _ _ _ _ _ A2).
    apply runs_all_evs in A1, A2. destruct (proj2 (interpret_complete checked fns) _ _ _ _ A1) as [n1 K1].
    destruct (proj2 (interpret_complete checked fns) _ _ _ _ A2) as [n2 K2].
    exists (S (fuel + n1 + n2)). rewrite <- R.
    assert (R' : interpret checked fns (S (fuel + n1 + n2)) (ECall f args) s = interpret checked fns fuel (ECall f args) s).
    { apply interpret_more; [rewrite R; now destruct r|lia]. }
    rewrite <- R'. cbn [interpret]. rewrite Hf, K1, K2 by lia. cbn [answer bind]. unfold bind_params.
    rewrite (proj2 (Nat.ltb_ge (length vs) (length ps))), (proj2 (Nat.ltb_ge (length vs') (length ps))) by lia. reflexivity. }
  intros. split; eapply H; eassumption.
Qed.
(** What a call does instead: the body runs in a frame without bindings, on top of the caller's variables. *)
Theorem C54_call_runs_body : forall checked fns f ps body args vs s s1 v s2,
  hm_get fns f = Some (ps, body) -> runs_all checked fns args s vs s1 -> length ps <= length args ->
  runs checked fns body (fresh s1) (Some v) s2 -> runs checked fns (ECall f args) s (Some v) (mk_state (env s1) (out s2)).
Proof.
  intros checked fns f ps body args vs s s1 v s2 Hf Ha L Hb. apply runs_ev. apply runs_ev in Hb.
  assert (length vs = length args) by (clear - Ha; induction Ha; cbn; congruence).
  apply runs_all_evs in Ha. apply ev_call with (ps := ps) (body := body) (vs := vs); try assumption. lia.
Qed.
(** Fewer arguments than parameters: panic, after the arguments have been evaluated. *)
Theorem C54_too_few_arguments : forall checked fns f ps body args vs s s1,
  hm_get fns f = Some (ps, body) -> runs_all checked fns args s vs s1 -> length args < length ps ->
  runs checked fns (ECall f args) s None (fresh s1).
Proof.
  intros checked fns f ps body args vs s s1 Hf Ha L. apply runs_ev.
  assert (length vs = length args) by (clear - Ha; induction Ha; cbn; congruence).
  apply runs_all_evs in Ha. apply ev_call_few with (ps := ps) (body := body) (vs := vs); try assumption. lia.
Qed.
Example C54_example : let fns := [(bs "f", ([bs "n"], EBin OAdd (ESymbol (bs "n")) (EInt 1)))] in
  let s := mk_state (mk_env [(bs "n", VInt 41)] []) [] in
  interpret true fns 9 (ECall (bs "f") [EInt 7]) s = Ret (VInt 42) s /\ interpret true fns 9 (ECall (bs "f") [EInt 8]) s = Ret (VInt 42) s /\
  interpret true fns 9 (ECall (bs "f") []) s = Pan (fresh s).
Proof. repeat split. Qed.
Print Assumptions C54_params_bound_refuted.
Print Assumptions C54_arguments_ignored_partial.
Print Assumptions C54_call_runs_body.
Print Assumptions C54_too_few_arguments.

(** ** The variables an expression may assign (calls do not count: they assign in their own frame). *)
Fixpoint writes (e : expr) : list name :=
  match e with
  | EBin _ l r => writes l ++ writes r
  | ECall _ args => flat_map writes args
  | ELabelled _ args => flat_map (fun a => writes (snd a)) args
  | EPrintln e | EParen e => writes e
  | EWhile c b => writes c ++ writes b
  | EIf c t e => writes c ++ writes t ++ match e with Some e => writes e | None => [] end
  | EBlock es => flat_map writes es
  | EAssign x e => x :: writes e
  | _ => []
  end.
Definition same_except (xs : list name) (s s' : state) : Prop :=
  env_next (env s') = env_next (env s) /\ forall x, ~ In x xs -> hm_get (env_bindings (env s')) x = hm_get (env_bindings (env s)) x.
Lemma same_refl : forall xs s, same_except xs s s.
Proof. now split. Qed.
Lemma same_trans : forall xs ys s1 s2 s3, same_except xs s1 s2 -> same_except ys s2 s3 -> same_except (xs ++ ys) s1 s3.
Proof.
  intros xs ys s1 s2 s3 [H1 H2] [K1 K2]. split; [congruence|]. intros x Hx. rewrite K2, H2; [reflexivity| |]; intros H; apply Hx, in_or_app; tauto.
Qed.
Lemma same_weaken : forall xs ys s s', same_except xs s s' -> incl xs ys -> same_except ys s s'.
Proof. intros xs ys s s' [H1 H2] Hi. split; [exact H1|]. intros x Hx. apply H2. intros K. now apply Hx, Hi. Qed.
Lemma flat_map_snd : forall (A : Type) (f : expr -> list A) (args : list (name * expr)), flat_map f (map snd args) = flat_map (fun a => f (snd a)) args.
Proof. intros A f args. induction args as [|a args IH]; cbn; [reflexivity|]. now rewrite IH. Qed.
Lemma ev_frame : forall checked fns,
  (forall e s r s', ev checked fns e s r s' -> r <> None -> same_except (writes e) s s') /\
  (forall es s r s', evs checked fns es s r s' -> r <> None -> same_except (flat_map writes es) s s').
Proof.
  intros checked fns. apply (@ev_ind2 checked fns (fun e s r s' _ => r <> None -> same_except (writes e) s s')
    (fun es s r s' _ => r <> None -> same_except (flat_map writes es) s s')); intros; cbn [writes flat_map] in *;
    rewrite ?app_nil_r in *; try congruence; try (now apply same_refl); auto.
  - apply same_trans with (s2 := s1); [apply H|apply H0]; discriminate.
  - specialize (H ltac:(discriminate)). apply same_weaken with (xs := writes e ++ [x]).
    + apply same_trans with (s2 := s1); [exact H|]. split; [reflexivity|]. intros y Hy. cbn. rewrite hm_get_set.
      destruct (list_eq_dec N.eq_dec y x) as [->|]; [|reflexivity]. exfalso. apply Hy. now left.
    + intros y Hy. apply in_app_or in Hy. destruct Hy as [Hy|[->|[]]]; [now right|now left].
  - apply same_trans with (s2 := s1); [apply H; discriminate|now apply H0].
  - apply same_weaken with (xs := writes c ++ writes t).
    + apply same_trans with (s2 := s1); [apply H; discriminate|now apply H0].
    + intros y Hy. apply in_app_or in Hy. apply in_or_app. destruct Hy; [now left|right; apply in_or_app; now left].
  - apply same_weaken with (xs := writes c ++ writes e).
    + apply same_trans with (s2 := s1); [apply H; discriminate|now apply H0].
    + intros y Hy. apply in_app_or in Hy. apply in_or_app. destruct Hy; [now left|right; apply in_or_app; now right].
  - apply same_weaken with (xs := writes c); [apply H; discriminate|]. intros y Hy. apply in_or_app. now left.
  - apply same_weaken with (xs := writes c); [apply H; discriminate|]. intros y Hy. apply in_or_app. now left.
  - apply same_weaken with (xs := (writes c ++ writes b) ++ (writes c ++ writes b)).
    + apply same_trans with (s2 := s2); [|now apply H1]. apply same_trans with (s2 := s1); [apply H|apply H0]; discriminate.
    + intros y Hy. apply in_app_or in Hy. tauto.
  - apply H. discriminate.
  - rewrite <- flat_map_snd. apply H. discriminate.
  - apply same_trans with (s2 := s1); [apply H|apply H0]; discriminate.
Qed.
(** Without assignments the environment is the same. *)
Lemma app_nil : forall (A : Type) (a b : list A), a ++ b = [] -> a = [] /\ b = [].
Proof. intros A [|x a] b H; [now split|discriminate]. Qed.
Lemma ev_pure : forall checked fns,
  (forall e s r s', ev checked fns e s r s' -> r <> None -> writes e = [] -> env s' = env s) /\
  (forall es s r s', evs checked fns es s r s' -> r <> None -> flat_map writes es = [] -> env s' = env s).
Proof.
  intros checked fns. apply (@ev_ind2 checked fns (fun e s r s' _ => r <> None -> writes e = [] -> env s' = env s)
    (fun es s r s' _ => r <> None -> flat_map writes es = [] -> env s' = env s)); intros; cbn [writes flat_map] in *;
    rewrite ?app_nil_r in *; try congruence; try reflexivity; auto;
    repeat match goal with H : _ ++ _ = [] |- _ => apply app_nil in H; destruct H end; cbn [env]; try discriminate;
    repeat match goal with H : Some _ <> None -> _ |- _ => specialize (H ltac:(discriminate)) end;
    repeat match goal with H : ?r <> None, K : ?r <> None -> _ |- _ => specialize (K H) end;
    repeat match goal with H : ?a = [], K : ?a = [] -> _ |- _ => specialize (K H) end; try congruence.
  - rewrite H1; [congruence|]. match goal with H : writes c = [], K : writes b = [] |- _ => rewrite H, K end. reflexivity.
  - apply H. now rewrite flat_map_snd.
Qed.

(** ** C55 *)
Theorem C55_call_preserves_env : forall checked fns f args s v s',
  runs checked fns (ECall f args) s (Some v) s' ->
  exists vs s1, runs_all checked fns args s vs s1 /\ env s' = env s1 /\ (flat_map writes args = [] -> env s' = env s).
Proof.
  intros checked fns f args s v s' H. apply runs_ev in H. inv H.
  - match goal with H : unsupported _ |- _ => inv H | _ => idtac end.
    exists vs, s1. split; [now apply runs_all_evs|]. split; [reflexivity|]. intros W. cbn.
    match goal with H : evs _ _ _ _ _ _ |- _ => now apply (ev_pure checked fns) in H end.
Qed.
Theorem C55_labelled_call_preserves_env : forall checked fns f args s v s',
  runs checked fns (ELabelled f args) s (Some v) s' ->
  exists vs s1, runs_all checked fns (map snd args) s vs s1 /\ env s' = env s1 /\ (flat_map (fun a => writes (snd a)) args = [] -> env s' = env s).
Proof.
  intros checked fns f args s v s' H. apply runs_ev in H. inv H.
  exists vs, s1. split; [now apply runs_all_evs|]. split; [reflexivity|]. intros W. cbn.
  match goal with H : evs _ _ _ _ _ _ |- _ => apply (ev_pure checked fns) in H; [exact H|discriminate|now rewrite flat_map_snd] end.
Qed.
(** More: whatever is evaluated, the enclosing frames stay as they are, and only the variables assigned outside of calls change. *)
Theorem C55_only_assigned_change : forall checked fns e s v s',
  runs checked fns e s (Some v) s' ->
  env_next (env s') = env_next (env s) /\
  forall x, ~ In x (writes e) -> hm_get (env_bindings (env s')) x = hm_get (env_bindings (env s)) x.
Proof. intros checked fns e s v s' H. apply runs_ev in H. apply (ev_frame checked fns) in H; [exact H|discriminate]. Qed.
Example C55_example : let fns := [(bs "f", ([], EBlock [EAssign (bs "y") (EInt 2); EPrintln (ESymbol (bs "x"))]))] in
  let s := mk_state (mk_env [(bs "x", VInt 1)] []) [] in
  interpret true fns 9 (ECall (bs "f") []) s = Ret (VInt 1) (mk_state (env s) [VInt 1]).
Proof. reflexivity. Qed.
Print Assumptions C55_call_preserves_env.
Print Assumptions C55_labelled_call_preserves_env.
Print Assumptions C55_only_assigned_change.

(** ** C56 *)
(** The interpreter implements the natural semantics, and once there is enough fuel more fuel changes nothing. *)
Theorem C56_refines_semantics : forall checked fns e s r s',
  ev checked fns e s r s' <-> exists n, forall fuel, n <= fuel -> interpret checked fns fuel e s = answer r s'.
Proof.
  intros checked fns e s r s'. split.
  - intros H. now apply interpret_complete.
  - intros [n H]. apply runs_ev. exists n. now apply H.
Qed.
Theorem C56_deterministic : forall checked fns e s r1 s1 r2 s2,
  runs checked fns e s r1 s1 -> runs checked fns e s r2 s2 -> r1 = r2 /\ s1 = s2.
Proof. intros checked fns e s r1 s1 r2 s2 H1 H2. apply runs_ev in H1, H2. now apply (ev_det H1 H2). Qed.
Theorem C56_fuel_irrelevant : forall checked fns fuel fuel' e s,
  interpret checked fns fuel e s <> Fuel -> fuel <= fuel' -> interpret checked fns fuel' e s = interpret checked fns fuel e s.
Proof. exact interpret_more. Qed.
(** Running out of fuel at every budget means that there is no derivation. *)
Theorem C56_diverges : forall checked fns e s,
  (forall fuel, interpret checked fns fuel e s = Fuel) <-> (forall r s', ~ ev checked fns e s r s').
Proof.
  intros checked fns e s. split.
  - intros H r s' K. apply runs_ev in K. destruct K as [fuel K]. rewrite H in K. now destruct r.
  - intros H fuel. destruct (interpret checked fns fuel e s) as [v s'|s'|] eqn:E; [| |reflexivity]; exfalso.
    + apply (H (Some v) s'). apply runs_ev. now exists fuel.
    + apply (H None s'). apply runs_ev. now exists fuel.
Qed.
Lemma ev_block_snoc : forall checked fns es e s w s', es <> [] -> ev checked fns (EBlock (es ++ [e])) s (Some w) s' ->
  exists v s1, ev checked fns (EBlock es) s (Some v) s1 /\ ev checked fns e s1 (Some w) s'.
Proof.
  intros checked fns es. induction es as [|d es IH]; intros e s w s' Hne H; [congruence|]. destruct es as [|d' es].
  - cbn in H. inv H. match goal with H : ev _ _ (EBlock [e]) _ _ _ |- _ => inv H end; [|congruence].
    exists v, s1. split; [now apply ev_block1|assumption].
  - cbn [app] in H. inv H. destruct (IH e _ _ _ ltac:(discriminate) ltac:(eassumption)) as (v' & s2 & K1 & K2).
    exists v', s2. split; [|exact K2]. apply ev_block with (v := v) (s1 := s1); [discriminate|assumption ..].
Qed.
(** An assigned value is what a later statement of the same block reads, if nothing in between assigns the variable. *)
Theorem C56_assignment_visible : forall checked fns x e es s w s',
  ~ In x (flat_map writes es) -> runs checked fns (EBlock (EAssign x e :: es ++ [ESymbol x])) s (Some w) s' ->
  exists s1, runs checked fns e s (Some w) s1.
Proof.
  intros checked fns x e es s w s' Hx H. apply runs_ev in H.
  destruct (@ev_block_snoc checked fns (EAssign x e :: es) (ESymbol x) s w s' ltac:(discriminate) H) as (v & s1 & K1 & K2).
  assert (G : exists s0, ev checked fns (EAssign x e) s (Some w) s0).
  { assert (A : exists v0 s0, ev checked fns (EAssign x e) s (Some v0) s0 /\ same_except (flat_map writes es) s0 s1).
    { inv K1.
      - exists v, s1. split; [assumption|apply same_refl].
      - do 2 eexists. split; [eassumption|]. match goal with H : ev _ _ (EBlock es) _ _ _ |- _ => apply (ev_frame checked fns) in H; [exact H|discriminate] end. }
    destruct A as (v0 & s0 & A & S). exists s0. inv A.
    match goal with H : ev _ _ (ESymbol _) _ _ _ |- _ => inv H end.
    match goal with H : lookup _ _ _ |- _ => unfold chain in H; inv H end.
    - destruct S as [_ S]. match goal with H : hm_get _ x = Some w |- _ => rewrite (S x Hx) in H; cbn in H; rewrite hm_get_set in H end.
      destruct (list_eq_dec N.eq_dec x x); [|congruence]. match goal with H : Some _ = Some _ |- _ => injection H as -> end. now apply ev_assign.
    - destruct S as [_ S]. match goal with H : hm_get _ x = None |- _ => rewrite (S x Hx) in H; cbn in H; rewrite hm_get_set in H end.
      destruct (list_eq_dec N.eq_dec x x); congruence. }
  destruct G as (s0 & G). inv G. exists s3. now apply runs_ev.
Qed.
Example C56_example : let x := bs "x" in let s := mk_state (mk_env [] []) [] in
  interpret true [] 9 (EBlock [EAssign x (EInt 5); EPrintln (EInt 0); ESymbol x]) s = Ret (VInt 5) (mk_state (mk_env [(x, VInt 5)] []) [VInt 0]).
Proof. reflexivity. Qed.
(** A loop without end. *)
Example C56_loop_diverges : forall fuel s, interpret true [] fuel (EWhile (EBin OEq (EInt 0) (EInt 0)) (EInt 1)) s = Fuel.
Proof.
  induction fuel as [|fuel IH]; intros s; [reflexivity|]. cbn [interpret]. destruct fuel as [|fuel]; [reflexivity|]. cbn [interpret].
  destruct fuel as [|fuel]; [reflexivity|]. cbn [interpret bind of_opt]. exact (IH s).
Qed.
Print Assumptions C56_refines_semantics.
Print Assumptions C56_deterministic.
Print Assumptions C56_fuel_irrelevant.
Print Assumptions C56_diverges.
Print Assumptions C56_assignment_visible.

(** ** C61: assignment to a variable in scope *)
(** It changes the variable if it belongs to the innermost frame (or creates it there if there is none) ... *)
Theorem C61_assignment_sets_partial : forall checked fns x e s v s1,
  runs checked fns e s (Some v) s1 -> bound_here s1 x \/ ~ bound s x ->
  exists s', runs checked fns (EAssign x e) s (Some v) s' /\ lookup (chain s') x v /\ out s' = out s1 /\
    forall y w, y <> x -> (lookup (chain s') y w <-> lookup (chain s1) y w).
Proof.
  intros checked fns x e s v s1 H K. exists (store s1 x v). split; [|split; [|split; [reflexivity|]]].
  - apply runs_ev. apply runs_ev in H. apply ev_assign; tauto.
  - apply lk_here. cbn. rewrite hm_get_set. destruct (list_eq_dec N.eq_dec x x); congruence.
  - intros y w Hy. unfold chain, store. cbn. assert (E : hm_get (hm_set (env_bindings (env s1)) x v) y = hm_get (env_bindings (env s1)) y).
    { rewrite hm_get_set. destruct (list_eq_dec N.eq_dec y x); congruence. }
    split; intros L; inv L; ((apply lk_here; congruence) || (apply lk_next; [congruence|assumption])).
Qed.
(** ... but panics if the variable belongs to an enclosing frame. *)
Theorem C61_outer_assignment_panics : forall checked fns x e s v s1,
  runs checked fns e s (Some v) s1 -> bound s x -> ~ bound_here s1 x -> runs checked fns (EAssign x e) s None s1.
Proof. intros checked fns x e s v s1 H B N. apply runs_ev. apply runs_ev in H. now apply ev_assign_p with (v := v). Qed.
(** So a function with a local variable that its caller uses, too, or that calls itself, panics. *)
Theorem C61_assignment_sets_refuted : forall checked,
  (exists fns s x e v, bound s x /\ runs checked fns e s (Some v) s /\ exists s', runs checked fns (EAssign x e) s None s') /\
  (exists main s', forall fuel, 20 <= fuel -> call_main checked fuel (EProgram [EFun (bs "f") [] (EBlock [EAssign (bs "i") (EInt 1)]); EFun (bs "main") [] main]) = Pan s') .
Proof.
  intros checked. split.
  - exists [], (mk_state (mk_env [] [[(bs "x", VInt 1)]]) []), (bs "x"), (EInt 2), (VInt 2). split; [|split].
    + exists (VInt 1). apply lk_next; [reflexivity|]. now apply lk_here.
    + now exists 1.
    + eexists. exists 2. reflexivity.
  - exists (EBlock [EAssign (bs "i") (EInt 0); ECall (bs "f") []]). eexists. intros fuel H.
    unfold call_main. cbn [load bind]. match goal with |- context[hm_get ?a ?b] => let t := eval vm_compute in (hm_get a b) in change (hm_get a b) with t end. cbv beta iota.
    match goal with |- interpret checked ?fns fuel ?e ?s = _ => rewrite (@interpret_more checked fns 20 fuel e s) end; [vm_compute; reflexivity| |exact H].
    vm_compute. discriminate.
Qed.
Example C61_example : let s := mk_state (mk_env [] [[(bs "x", VInt 1)]]) [] in interpret true [] 9 (EAssign (bs "x") (EInt 2)) s = Pan s /\
  interpret true [] 9 (EAssign (bs "y") (EInt 2)) s = Ret (VInt 2) (mk_state (mk_env [(bs "y", VInt 2)] [[(bs "x", VInt 1)]]) []).
Proof. split; reflexivity. Qed.
Print Assumptions C61_assignment_sets_partial.
Print Assumptions C61_outer_assignment_panics.
Print Assumptions C61_assignment_sets_refuted.

(** ** C62: global variables *)
(** A global variable is never bound: loading the definitions leaves the environment empty unless an initialiser assigns. *)
Theorem C62_globals_not_bound_partial : forall checked fuel defs fns s fns' s',
  (forall x e, In (EGlobal x e) defs -> writes e = []) -> load checked fuel fns defs s = Ret fns' s' -> env s' = env s.
Proof.
  intros checked fuel defs. induction defs as [|d defs IH]; intros fns s fns' s' W H; [cbn in H; now injection H as _ <-|].
  assert (W' : forall x e, In (EGlobal x e) defs -> writes e = []) by (intros x e K; apply (W x e); now right).
  destruct d; try discriminate H; cbn [load] in H.
  - destruct (interpret checked fns fuel d s) as [v s1|s1|] eqn:E; try discriminate. cbn [bind] in H.
    rewrite (IH _ _ _ _ W' H). assert (R : runs checked fns d s (Some v) s1) by now exists fuel.
    apply runs_ev in R. apply (ev_pure checked fns) in R; [exact R|discriminate|]. apply (W x d). now left.
  - now apply (IH _ _ _ _ W' H).
Qed.
Theorem C62_globals_bound_refuted : forall checked, exists x z, forall fuel, 10 <= fuel ->
  call_main checked fuel (EProgram [EGlobal x (EInt z); EFun (bs "main") [] (ESymbol x)]) = Pan start.
Proof.
  intros checked. exists (bs "g"), 1%Z. intros fuel H. do 10 (destruct fuel as [|fuel]; [lia|]). reflexivity.
Qed.
Example C62_example : load true 9 [] [EGlobal (bs "g") (EInt 1); EFun (bs "main") [] (ESymbol (bs "g"))] start = Ret [(bs "main", ([], ESymbol (bs "g")))] start.
Proof. reflexivity. Qed.
Print Assumptions C62_globals_not_bound_partial.
Print Assumptions C62_globals_bound_refuted.

(** ** C63: expressions that cannot be interpreted *)
(** Literals true and false, arrays, and empty blocks always panic; the parser builds all of them. *)
Theorem C63_interpretable_refuted : forall checked fns s, (forall b, runs checked fns (EBool b) s None s) /\
  (forall es, runs checked fns (EArray es) s None s) /\ runs checked fns (EBlock []) s None s.
Proof. intros checked fns s. repeat split; intros; exists 1; reflexivity. Qed.
(** Everything else panics only for a reason: a name that is not bound, a function that does not exist or has more parameters
    than there are arguments, operands of the wrong kind or an arithmetic error, or a panicking part. *)
Inductive reason (checked : bool) (fns : functions) : expr -> state -> Prop :=
| re_unsupported : forall e s, unsupported e -> reason checked fns e s
| re_empty : forall s, reason checked fns (EBlock []) s
| re_unbound : forall x s, ~ bound s x -> reason checked fns (ESymbol x) s
| re_outer : forall x e s v s1, runs checked fns e s (Some v) s1 -> bound s x -> ~ bound_here s1 x -> reason checked fns (EAssign x e) s
| re_operands : forall o l r s a s1 b s2, runs checked fns l s (Some a) s1 -> runs checked fns r s1 (Some b) s2 -> (forall v, ~ bin_rel checked o a b v) -> reason checked fns (EBin o l r) s
| re_cond : forall c t e s v s1, runs checked fns c s (Some v) s1 -> (forall b, v <> VBool b) -> reason checked fns (EIf c t e) s
| re_wcond : forall c b s v s1, runs checked fns c s (Some v) s1 -> (forall b, v <> VBool b) -> reason checked fns (EWhile c b) s
| re_no_fun : forall f args s, hm_get fns f = None -> reason checked fns (ECall f args) s
| re_no_fun_l : forall f args s, hm_get fns f = None -> reason checked fns (ELabelled f args) s
| re_few : forall f ps body args s, hm_get fns f = Some (ps, body) -> length args < length ps -> reason checked fns (ECall f args) s.
Theorem C63_panics_only_for_a_reason_partial : forall checked fns e s s',
  runs checked fns e s None s' -> exists e' s0, reason checked fns e' s0 /\ runs checked fns e' s0 None s'.
Proof.
  intros checked fns e s s' H. apply runs_ev in H.
  assert (G : (forall e s r s', ev checked fns e s r s' -> r = None -> exists e' s0, reason checked fns e' s0 /\ ev checked fns e' s0 None s') /\
              (forall es s r s', evs checked fns es s r s' -> r = None -> exists e' s0, reason checked fns e' s0 /\ ev checked fns e' s0 None s')).
  { apply (@ev_ind2 checked fns (fun e s r s' _ => r = None -> exists e' s0, reason checked fns e' s0 /\ ev checked fns e' s0 None s')
     (fun es s r s' _ => r = None -> exists e' s0, reason checked fns e' s0 /\ ev checked fns e' s0 None s')); intros; try discriminate; auto.
    - exists e0, s0. split; [now apply re_unsupported|now apply ev_unsupported].
    - exists (ESymbol x), s0. split; [now apply re_unbound|now apply ev_symbol_p].
    - exists (EBin o l r), s0. split; [apply re_operands with (a := a) (s1 := s1) (b := b) (s2 := s2); try assumption; now apply runs_ev|now apply ev_bin_p with (a := a) (b := b) (s1 := s1)].
    - exists (EAssign x e0), s0. split; [apply re_outer with (v := v) (s1 := s1); try assumption; now apply runs_ev|now apply ev_assign_p with (v := v)].
    - exists (EBlock []), s0. split; [apply re_empty|apply ev_block0].
    - exists (EIf c t e0), s0. split; [apply re_cond with (v := v) (s1 := s1); try assumption; now apply runs_ev|now apply ev_if_p with (v := v)].
    - exists (EWhile c b), s0. split; [apply re_wcond with (v := v) (s1 := s1); try assumption; now apply runs_ev|now apply ev_while_p with (v := v)].
    - exists (ECall f args), s0. split; [|now apply ev_call_few with (ps := ps) (body := body) (vs := vs)].
      apply re_few with (ps := ps) (body := body); [assumption|]. replace (length args) with (length vs); [assumption|].
      match goal with H : evs _ _ args s0 (Some vs) s1 |- _ => clear - H; revert H; generalize s0; revert vs; induction args as [|a args IH]; intros vs q H; inv H; cbn; [reflexivity|f_equal; eapply IH; eassumption] end.
    - exists (ECall f args), s0. split; [now apply re_no_fun|now apply ev_call_u].
    - exists (ELabelled f args), s0. split; [now apply re_no_fun_l|now apply ev_lab_u]. }
  destruct (proj1 G _ _ _ _ H eq_refl) as (e' & s0 & R & K). exists e', s0. split; [exact R|now apply runs_ev].
Qed.
Example C63_example : interpret true [] 9 (EIf (EBool true) (EInt 1) None) start = Pan start /\ interpret true [] 9 (EIf (EBin OLt (EInt 0) (EInt 1)) (EInt 1) None) start = Ret (VInt 1) start.
Proof. split; reflexivity. Qed.
Print Assumptions C63_interpretable_refuted.
Print Assumptions C63_panics_only_for_a_reason_partial.

(** ** C64: && and || *)
(** The value is right ... *)
Theorem C64_and_or_value_partial : forall checked fns l r s x s1 y s2,
  runs checked fns l s (Some (VBool x)) s1 -> runs checked fns r s1 (Some (VBool y)) s2 ->
  runs checked fns (EBin OAnd l r) s (Some (VBool (x && y))) s2 /\ runs checked fns (EBin OOr l r) s (Some (VBool (x || y))) s2.
Proof.
  intros checked fns l r s x s1 y s2 H1 H2. apply runs_ev in H1, H2.
  split; apply runs_ev; apply ev_bin with (a := VBool x) (b := VBool y) (s1 := s1); try assumption; destruct x; cbn; constructor.
Qed.
(** ... but the second operand is always evaluated: its effects happen, its panic is the panic of the whole, and if it does
    not return neither does the whole. *)
Theorem C64_second_operand_always_evaluated : forall checked fns o l r s a s1 res s', o = OAnd \/ o = OOr ->
  runs checked fns l s (Some a) s1 -> runs checked fns (EBin o l r) s res s' ->
  exists q, runs checked fns r s1 q s' /\ (q = None -> res = None).
Proof.
  intros checked fns o l r s a s1 res s' _ Hl H. apply runs_ev in Hl, H. inv H.
  - match goal with H : unsupported _ |- _ => inv H end.
  - match goal with H : ev _ _ l s (Some _) ?t |- _ => destruct (ev_det Hl H) as [E <-] end. exists (Some b). split; [now apply runs_ev|discriminate].
  - match goal with H : ev _ _ l s (Some _) ?t |- _ => destruct (ev_det Hl H) as [E <-] end. exists (Some b). split; [now apply runs_ev|discriminate].
  - match goal with H : ev _ _ l s None ?t |- _ => destruct (ev_det Hl H) as [E _] end. discriminate.
  - match goal with H : ev _ _ l s (Some _) ?t |- _ => destruct (ev_det Hl H) as [E <-] end. exists None. split; [now apply runs_ev|reflexivity].
Qed.
Theorem C64_short_circuit_refuted : forall checked fns s, exists l r,
  runs checked fns l s (Some (VBool false)) s /\ runs checked fns (EBin OAnd l r) s None s.
Proof. intros checked fns s. exists (EBin OLt (EInt 1) (EInt 0)), (EBool true). split; exists 5; reflexivity. Qed.
Example C64_example : interpret true [] 9 (EBin OAnd (EBin OLt (EInt 1) (EInt 0)) (EPrintln (EInt 7))) start = Ret (VBool false) (mk_state (env start) [VInt 7]).
Proof. reflexivity. Qed.
Print Assumptions C64_and_or_value_partial.
Print Assumptions C64_second_operand_always_evaluated.
Print Assumptions C64_short_circuit_refuted.

(** ** C65: for loops *)
(** The body is run for a, a+1, ..., b-1, with the loop variable holding this value; afterwards the variable is max(a, b). *)
Inductive iterates (checked : bool) (fns : functions) (x : name) (body : expr) : Z -> Z -> state -> state -> Prop :=
| it_done : forall a b s, (b <= a)%Z -> iterates checked fns x body a b s s
| it_step : forall a b s v s1 s2, (a < b)%Z -> runs checked fns body s (Some v) s1 ->
    iterates checked fns x body (a + 1) b (store s1 x (VInt (a + 1))) s2 -> iterates checked fns x body a b s s2.
Section For.
Variable checked : bool.
Variable fns : functions.
Variable x : name.
Variable body : expr.
Hypothesis body_ok : ~ In x (writes body).
Notation ev := (ev checked fns).
Definition holds (s : state) (a : Z) : Prop := hm_get (env_bindings (env s)) x = Some (VInt a).
Lemma holds_store : forall s a, holds (store s x (VInt a)) a.
Proof. intros s a. unfold holds, store. cbn. rewrite hm_get_set. destruct (list_eq_dec N.eq_dec x x); congruence. Qed.
Lemma cond_ev : forall s a b, holds s a -> ev (EBin OLt (ESymbol x) (EInt b)) s (Some (VBool (a <? b)%Z)) s.
Proof.
  intros s a b H. apply ev_bin with (a := VInt a) (b := VInt b) (s1 := s).
  - apply ev_symbol. now apply lk_here.
  - apply ev_int.
  - apply b_cmp. apply Z.ltb_lt.
Qed.
Lemma step_ev : forall s a, holds s a -> i64 a -> i64 (a + 1) -> ev (EAssign x (EBin OAdd (ESymbol x) (EInt 1))) s (Some (VInt (a + 1))) (store s x (VInt (a + 1))).
Proof.
  intros s a H Ha Ha1. apply ev_assign; [|right; now exists (VInt a)]. apply ev_bin with (a := VInt a) (b := VInt 1) (s1 := s).
  - apply ev_symbol. now apply lk_here.
  - apply ev_int.
  - apply b_add. split; [exact Ha1|now left].
Qed.
Lemma body_holds : forall s v s1 a, ev body s (Some v) s1 -> holds s a -> holds s1 a.
Proof. intros s v s1 a H K. apply (ev_frame checked fns) in H; [|discriminate]. destruct H as [_ H]. unfold holds. rewrite H; assumption. Qed.
Lemma while_iterates : forall b e s r s', ev e s r s' -> i64 b -> forall a, i64 a ->
  e = EWhile (EBin OLt (ESymbol x) (EInt b)) (EBlock [body; EAssign x (EBin OAdd (ESymbol x) (EInt 1))]) ->
  holds s a -> forall v, r = Some v -> v = VBool true /\ iterates checked fns x body a b s s'.
Proof.
  intros b e s r s' H. induction H; intros Hb a0 Ha E Hs w Ew; try discriminate; injection E; intros; subst.
  - split; [congruence|]. destruct (ev_det H (cond_ev b Hs)) as [E1 <-]. injection E1 as E1. apply it_done. symmetry in E1. apply Z.ltb_ge in E1. exact E1.
  - destruct (ev_det H (cond_ev b Hs)) as [E1 ->]. injection E1 as E1. symmetry in E1. apply Z.ltb_lt in E1.
    assert (B1 : i64 (a0 + 1)) by (unfold i64 in *; lia).
    assert (D : exists u sb, ev body s (Some u) sb /\ s2 = store sb x (VInt (a0 + 1))).
    { inv H0. match goal with H : ev (EBlock [_]) _ _ _ |- _ => inv H end; [|congruence]. exists v0, s1. split; [assumption|].
      match goal with H : ev (EAssign _ _) ?t _ _, K : ev body _ _ ?t |- _ => destruct (ev_det H (step_ev (body_holds K Hs) Ha B1)) as [_ ->] end. reflexivity. }
    destruct D as (u & sb & Hbody & ->).
    destruct (IHev3 Hb (a0 + 1)%Z B1 eq_refl (holds_store sb (a0 + 1)) w eq_refl) as [-> I3]. split; [reflexivity|].
    apply it_step with (v := u) (s1 := sb); [exact E1|now apply runs_ev|exact I3].
Qed.
Lemma iterates_while : forall a b s s', iterates checked fns x body a b s s' -> i64 a -> i64 b -> holds s a ->
  ev (EWhile (EBin OLt (ESymbol x) (EInt b)) (EBlock [body; EAssign x (EBin OAdd (ESymbol x) (EInt 1))])) s (Some (VBool true)) s'.
Proof.
  intros a b s s' H. induction H as [a b s L|a b s v s1 s2 L R H IH]; intros Ha Hb Hs; pose proof (cond_ev b Hs) as C.
  - apply Z.ltb_ge in L. rewrite L in C. now apply ev_while_f.
  - assert (B1 : i64 (a + 1)) by (unfold i64 in *; lia). rewrite (proj2 (Z.ltb_lt a b) L) in C. apply runs_ev in R.
    apply ev_while_t with (s1 := s) (v := VInt (a + 1)) (s2 := store s1 x (VInt (a + 1))); [exact C| |apply IH; [exact B1|exact Hb|apply holds_store]].
    apply ev_block with (v := v) (s1 := s1); [discriminate|exact R|]. apply ev_block1. apply step_ev; [now apply (body_holds R)|exact Ha|exact B1].
Qed.
End For.
Theorem C65_for_loop : forall checked fns x body a b s v s',
  ~ In x (writes body) -> i64 a -> i64 b -> bound_here s x \/ ~ bound s x ->
  (runs checked fns (for_expr x (EInt a) (EInt b) body) s (Some v) s' <->
   v = VBool true /\ iterates checked fns x body a b (store s x (VInt a)) s').
Proof.
  intros checked fns x body a b s v s' Hw Ha Hb Hs. rewrite runs_ev. unfold for_expr. split.
  - intros H. inv H. match goal with H : ev _ _ (EAssign x (EInt a)) _ _ _ |- _ => inv H end.
    match goal with H : ev _ _ (EInt a) _ _ _ |- _ => inv H end.
    match goal with H : ev _ _ (EBlock [_]) _ _ _ |- _ => inv H end; [|congruence].
    match goal with H : ev _ _ (EWhile _ _) _ _ _ |- _ => now apply (while_iterates Hw H Hb Ha eq_refl (holds_store x _ a) eq_refl) end.
  - intros [-> H]. apply ev_block with (v := VInt a) (s1 := store s x (VInt a)); [discriminate| |].
    + apply ev_assign; [apply ev_int|tauto].
    + apply ev_block1. apply (iterates_while Hw H Ha Hb). apply holds_store.
Qed.
(** A body that prints the variable prints a, ..., b-1. *)
Definition range (a b : Z) : list Z := map (fun i => a + Z.of_nat i)%Z (seq 0 (Z.to_nat (b - a))).
Theorem C65_for_prints_range : forall checked fns x a b s v s',
  i64 a -> i64 b -> bound_here s x \/ ~ bound s x ->
  runs checked fns (for_expr x (EInt a) (EInt b) (EPrintln (ESymbol x))) s (Some v) s' -> out s' = out s ++ map VInt (range a b).
Proof.
  intros checked fns x a b s v s' Ha Hb Hs H. apply C65_for_loop in H; try assumption; [|now cbn]. destruct H as [_ H].
  change (out s) with (out (store s x (VInt a))). assert (K : holds x (store s x (VInt a)) a) by apply holds_store. revert K H. generalize (store s x (VInt a)). clear.
  intros s K H. induction H as [a b s L|a b s v s1 s2 L R H IH].
  - unfold range. replace (Z.to_nat (b - a)) with 0 by lia. now rewrite app_nil_r.
  - rewrite IH by apply holds_store. cbn [out store]. apply runs_ev in R. inv R.
    match goal with H : ev _ _ (ESymbol _) _ _ _ |- _ => inv H end. match goal with H : lookup _ _ _ |- _ => unfold chain in H; inv H end; unfold holds in K; [|congruence].
    cbn [out written]. rewrite <- app_assoc. f_equal. unfold range. replace (Z.to_nat (b - a)) with (S (Z.to_nat (b - (a + 1)))) by lia.
    cbn [seq map app]. f_equal; [rewrite Z.add_0_r; congruence|]. rewrite <- seq_shift, !map_map. apply map_ext. intros i. f_equal. lia.
Qed.
Example C65_example : let i := bs "i" in exists s', interpret true [] 30 (for_expr i (EInt 1) (EInt 4) (EPrintln (ESymbol i))) start = Ret (VBool true) s' /\
  out s' = [VInt 1; VInt 2; VInt 3] /\ env s' = mk_env [(i, VInt 4)] [].
Proof. eexists. split; [vm_compute; reflexivity|]. split; reflexivity. Qed.
Print Assumptions C65_for_loop.
Print Assumptions C65_for_prints_range.

(** ** C66: integers stay in the range of i64 *)
Fixpoint literals (e : expr) : list Z :=
  match e with
  | EInt z => [z]
  | EBin _ l r => literals l ++ literals r
  | ECall _ args | EBlock args => flat_map literals args
  | ELabelled _ args => flat_map (fun a => literals (snd a)) args
  | EPrintln e | EParen e | EAssign _ e => literals e
  | EWhile c b => literals c ++ literals b
  | EIf c t e => literals c ++ literals t ++ match e with Some e => literals e | None => [] end
  | _ => []
  end.
Definition int_ok (v : value) : Prop := forall z, v = VInt z -> i64 z.
Definition frame_ok (b : bindings) : Prop := forall x v, hm_get b x = Some v -> int_ok v.
Definition state_ok (s : state) : Prop := Forall frame_ok (chain s) /\ Forall int_ok (out s).
Definition funs_ok (fns : functions) : Prop := forall f ps body, hm_get fns f = Some (ps, body) -> Forall i64 (literals body).
Lemma lookup_ok : forall bs x v, lookup bs x v -> Forall frame_ok bs -> int_ok v.
Proof. intros bs x v H. induction H as [b bs x v E|b bs x v E H IH]; intros K; inv K; [now match goal with H : frame_ok b |- _ => apply (H x) end|now apply IH]. Qed.
Lemma quot_range : forall x y, i64 x -> y <> 0%Z -> ~ (x = i64_min /\ y = (-1)%Z) -> i64 (Z.quot x y).
Proof.
  intros x y Hx Hy Hn. unfold i64 in *. assert (M : i64_max = (- i64_min - 1)%Z) by reflexivity.
  assert (A : (Z.abs (Z.quot x y) <= Z.abs x)%Z).
  { rewrite <- (Z.quot_abs x y Hy). rewrite Z.quot_div_nonneg by lia. apply Z.div_le_upper_bound; [lia|]. nia. }
  destruct (Z.eq_dec x i64_min) as [->|]; [|lia]. destruct (Z.eq_dec y 1) as [->|H1]; [rewrite Z.quot_1_r; lia|].
  assert (B : (Z.abs (Z.quot i64_min y) < Z.abs i64_min)%Z).
  { rewrite <- (Z.quot_abs i64_min y Hy). apply Z.quot_lt; [reflexivity|lia]. }
  lia.
Qed.
Lemma rem_range : forall x y, i64 x -> y <> 0%Z -> i64 (Z.rem x y).
Proof.
  intros x y Hx Hy. unfold i64 in *. assert (M : i64_max = (- i64_min - 1)%Z) by reflexivity.
  destruct (Z_le_gt_dec 0 x) as [P|P].
  - pose proof (Z.rem_nonneg x y Hy P). pose proof (Z.rem_le x (Z.abs y) P ltac:(lia)) as Q. rewrite Z.rem_abs_r in Q by exact Hy. lia.
  - pose proof (Z.rem_nonpos x y Hy ltac:(lia)). pose proof (Z.rem_le (- x) (Z.abs y) ltac:(lia) ltac:(lia)) as Q.
    rewrite Z.rem_abs_r in Q by exact Hy. rewrite Z.rem_opp_l in Q by exact Hy. lia.
Qed.
Lemma bin_ok : forall checked o a b v, bin_rel checked o a b v -> int_ok a -> int_ok b -> int_ok v.
Proof.
  intros checked o a b v H Ha Hb z E. destruct H; try discriminate; injection E as <-.
  1-3: match goal with H : arith_rel _ _ _ |- _ => apply H end.
  - apply quot_range; [now apply Ha|assumption ..].
  - apply rem_range; [now apply Ha|assumption].
Qed.
Lemma store_ok : forall s x v, state_ok s -> int_ok v -> state_ok (store s x v).
Proof.
  intros s x v [H1 H2] Hv. split; [|exact H2]. unfold chain in *. inv H1. constructor; [|assumption]. intros y w E. cbn in E. rewrite hm_get_set in E.
  destruct (list_eq_dec N.eq_dec y x); [injection E as <-; exact Hv|]. match goal with H : frame_ok _ |- _ => now apply (H y) end.
Qed.
Lemma fresh_ok : forall s, state_ok s -> state_ok (fresh s).
Proof. intros s [H1 H2]. split; [|exact H2]. constructor; [now intros x v E|exact H1]. Qed.
Theorem C66_integers_in_range : forall checked fns e s r s',
  funs_ok fns -> Forall i64 (literals e) -> state_ok s -> runs checked fns e s r s' ->
  state_ok s' /\ forall v, r = Some v -> int_ok v.
Proof.
  intros checked fns e s r s' Hf He Hs H. apply runs_ev in H.
  assert (G : (forall e s r s', ev checked fns e s r s' -> Forall i64 (literals e) -> state_ok s -> state_ok s' /\ forall v, r = Some v -> int_ok v) /\
              (forall es s r s', evs checked fns es s r s' -> Forall i64 (flat_map literals es) -> state_ok s -> state_ok s')); [|now apply (proj1 G) in H].
  clear e s r s' He Hs H.
  apply (@ev_ind2 checked fns (fun e s r s' _ => Forall i64 (literals e) -> state_ok s -> state_ok s' /\ forall v, r = Some v -> int_ok v)
    (fun es s r s' _ => Forall i64 (flat_map literals es) -> state_ok s -> state_ok s')); intros; cbn [literals flat_map] in *;
    rewrite ?app_nil_r in *; repeat match goal with H : Forall _ (_ ++ _) |- _ => apply Forall_app in H; destruct H end;
    rewrite <- ?flat_map_snd in *;
    repeat match goal with
    | H : ?A -> state_ok ?s -> _, K : ?A, L : state_ok ?s |- _ => specialize (H K L)
    | H : state_ok _ /\ (forall _, _) |- _ => destruct H
    end; try (match goal with K : hm_get fns _ = Some _ |- _ => pose proof (Hf _ _ _ K) end);
    repeat match goal with
    | H : ?A -> state_ok (fresh ?s) -> _, K : ?A, L : state_ok ?s |- _ => specialize (H K (fresh_ok L))
    | H : state_ok _ /\ (forall _, _) |- _ => destruct H
    | H : ?A -> state_ok ?s -> _, K : ?A, L : state_ok ?s |- _ => specialize (H K L)
    | H : Forall i64 (?a ++ ?b) -> _, K : Forall i64 ?a, L : Forall i64 ?b |- _ => specialize (H (proj2 (Forall_app _ a b) (conj K L)))
    end;
    try (now split); try assumption.
  all: repeat match goal with H : forall v, Some ?a = Some v -> int_ok v |- _ => specialize (H a eq_refl) end.
  - split; [assumption|]. intros v E z0 E2. match goal with H : Forall i64 [z] |- _ => inv H end. congruence.
  - split; [assumption|]. intros v E z0 E2. congruence.
  - split; [assumption|]. intros w E. injection E as <-. match goal with H : state_ok s |- _ => now apply (lookup_ok ltac:(eassumption) (proj1 H)) end.
  - split; [assumption|]. intros w E. injection E as <-. now apply (bin_ok ltac:(eassumption)).
  - split; [now apply store_ok|]. intros w E. now injection E as <-.
  - split; [|intros w E; now injection E as <-]. match goal with H : state_ok s1 |- _ => destruct H as [C O] end. split; [exact C|]. cbn. apply Forall_app. split; [exact O|now constructor].
  - split; [assumption|]. intros v E z0 E2. congruence.
  - split; [assumption|]. intros v E z0 E2. congruence.
  - match goal with H : state_ok s2 -> _ |- _ => now apply H end.
  - split; [|intros w E; now injection E as <-]. match goal with A : state_ok s1, B : state_ok s2 |- _ => destruct A as [A1 A2], B as [B1 B2] end. now split.
  - split; [now apply fresh_ok|discriminate].
  - split; [|intros w E; now injection E as <-]. match goal with A : state_ok s1, B : state_ok s2 |- _ => destruct A as [A1 A2], B as [B1 B2] end. now split.
Qed.
Example C66_example : interpret true [] 9 (EBin OAdd (EInt i64_max) (EInt 1)) start = Pan start /\ interpret false [] 9 (EBin OAdd (EInt i64_max) (EInt 1)) start = Ret (VInt i64_min) start /\
  interpret false [] 9 (EBin ODiv (EInt i64_min) (EInt (-1))) start = Pan start.
Proof. repeat split. Qed.
Print Assumptions C66_integers_in_range.
