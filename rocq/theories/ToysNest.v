(** Which functions are running when a toys function is entered, and what a function can see of the frames around it. *)
From Verif Require Import Base Core Comb Closure Text Toys ToysSpec ToysFacts PropsAH.
From Coq Require Import ZArith Lia.
Set Implicit Arguments.
Local Open Scope nat_scope.
Local Open Scope list_scope.

Section Nest.
Variable checked : bool.
Variable fns : functions.
Notation ev := (ev checked fns).
Notation evs := (evs checked fns).
Notation interpret := (interpret checked fns).

(** While [e] runs from [s], the function [g] is entered with the state [u]; [fs] are the functions that [e] is running then, outermost first. *)
Inductive enters : expr -> state -> list name -> name -> state -> Prop :=
| en_left : forall o l r s fs g u, enters l s fs g u -> enters (EBin o l r) s fs g u
| en_right : forall o l r s a s1 fs g u, ev l s (Some a) s1 -> enters r s1 fs g u -> enters (EBin o l r) s fs g u
| en_assign : forall x e s fs g u, enters e s fs g u -> enters (EAssign x e) s fs g u
| en_println : forall e s fs g u, enters e s fs g u -> enters (EPrintln e) s fs g u
| en_paren : forall e s fs g u, enters e s fs g u -> enters (EParen e) s fs g u
| en_if : forall c t e s fs g u, enters c s fs g u -> enters (EIf c t e) s fs g u
| en_then : forall c t e s s1 fs g u, ev c s (Some (VBool true)) s1 -> enters t s1 fs g u -> enters (EIf c t e) s fs g u
| en_else : forall c t e s s1 fs g u, ev c s (Some (VBool false)) s1 -> enters e s1 fs g u -> enters (EIf c t (Some e)) s fs g u
| en_cond : forall c b s fs g u, enters c s fs g u -> enters (EWhile c b) s fs g u
| en_body : forall c b s s1 fs g u, ev c s (Some (VBool true)) s1 -> enters b s1 fs g u -> enters (EWhile c b) s fs g u
| en_again : forall c b s s1 v s2 fs g u, ev c s (Some (VBool true)) s1 -> ev b s1 (Some v) s2 -> enters (EWhile c b) s2 fs g u -> enters (EWhile c b) s fs g u
| en_block : forall es s fs g u, enters_list es s fs g u -> enters (EBlock es) s fs g u
| en_args : forall f d args s fs g u, hm_get fns f = Some d -> enters_list args s fs g u -> enters (ECall f args) s fs g u
| en_call : forall f ps body args s vs s1, hm_get fns f = Some (ps, body) -> evs args s (Some vs) s1 -> length ps <= length vs ->
    enters (ECall f args) s [] f (fresh s1)
| en_in : forall f ps body args s vs s1 fs g u, hm_get fns f = Some (ps, body) -> evs args s (Some vs) s1 -> length ps <= length vs ->
    enters body (fresh s1) fs g u -> enters (ECall f args) s (f :: fs) g u
| en_largs : forall f d args s fs g u, hm_get fns f = Some d -> enters_list (map snd args) s fs g u -> enters (ELabelled f args) s fs g u
| en_lcall : forall f d args s vs s1, hm_get fns f = Some d -> evs (map snd args) s (Some vs) s1 -> enters (ELabelled f args) s [] f (fresh s1)
| en_lin : forall f ps body args s vs s1 fs g u, hm_get fns f = Some (ps, body) -> evs (map snd args) s (Some vs) s1 ->
    enters body (fresh s1) fs g u -> enters (ELabelled f args) s (f :: fs) g u
with enters_list : list expr -> state -> list name -> name -> state -> Prop :=
| en_here : forall e es s fs g u, enters e s fs g u -> enters_list (e :: es) s fs g u
| en_later : forall e es s v s1 fs g u, ev e s (Some v) s1 -> enters_list es s1 fs g u -> enters_list (e :: es) s fs g u.
Scheme enters_mut := Minimality for enters Sort Prop with enters_list_mut := Minimality for enters_list Sort Prop.
Combined Scheme enters_ind2 from enters_mut, enters_list_mut.

(** ** The value of a name in a chain of frames *)
Definition valof (bs : list bindings) (x : name) : option value := match find_chain bs x with Some b => hm_get b x | None => None end.
Lemma valof_cons : forall b bs x, valof (b :: bs) x = match hm_get b x with Some v => Some v | None => valof bs x end.
Proof. intros b bs x. unfold valof. cbn [find_chain]. now destruct (hm_get b x) eqn:E. Qed.
Lemma valof_none : forall bs x, valof bs x = None <-> find_chain bs x = None.
Proof. intros bs x. unfold valof. destruct (find_chain bs x) eqn:E; [|easy]. apply find_get in E. destruct E as [v E]. rewrite E. easy. Qed.
Lemma valof_lookup : forall bs x v, valof bs x = Some v <-> lookup bs x v.
Proof.
  intros bs x v. unfold valof. split.
  - destruct (find_chain bs x) eqn:E; [|discriminate]. now apply find_lookup.
  - intros H. apply lookup_find in H. destruct H as (b & -> & H). exact H.
Qed.
Lemma symbol_valof : forall n x s, interpret (S n) (ESymbol x) s = of_opt (valof (chain s) x) s.
Proof. intros n x s. cbn [Toys.interpret]. unfold valof, find_binding, chain. now destruct (find_chain _ x). Qed.
Lemma defined_valof : forall x s, (match find_binding (env s) x with Some _ => true | None => false end) = (match valof (chain s) x with Some _ => true | None => false end).
Proof.
  intros x s. unfold find_binding. pose proof (valof_none (chain s) x) as N. unfold chain in *. destruct (find_chain _ x) eqn:E.
  - destruct (valof _ x); [reflexivity|]. now destruct N as [N _]; specialize (N eq_refl).
  - now rewrite (proj2 N).
Qed.

(** ** The frame of a call has no name of the frames around it *)
Definition inner (s : state) : Prop := forall x v, hm_get (env_bindings (env s)) x = Some v -> valof (env_next (env s)) x = None.
Lemma args_inner : forall go es s vs s', (forall e s v s', go e s = Ret v s' -> inner s -> env_next (env s') = env_next (env s) /\ inner s') ->
  eval_args go es s = Ret vs s' -> inner s -> env_next (env s') = env_next (env s) /\ inner s'.
Proof.
  intros go es. induction es as [|e es IH]; intros s vs s' G H I; cbn [eval_args] in H; [now inv H|].
  step H. step H. inv H. destruct (G _ _ _ _ E I) as [N1 I1]. destruct (IH _ _ _ G E0 I1) as [N2 I2]. split; [congruence|exact I2].
Qed.
Lemma block_inner : forall go es w s v s', (forall e s v s', go e s = Ret v s' -> inner s -> env_next (env s') = env_next (env s) /\ inner s') ->
  eval_block go es w s = Ret v s' -> inner s -> env_next (env s') = env_next (env s) /\ inner s'.
Proof.
  intros go es. induction es as [|e es IH]; intros w s v s' G H I; cbn [eval_block] in H; [apply of_opt_ret in H; now destruct H as [_ ->]|].
  step H. destruct (G _ _ _ _ E I) as [N1 I1]. destruct (IH _ _ _ _ G H I1) as [N2 I2]. split; [congruence|exact I2].
Qed.
Lemma interpret_inner : forall n e s v s', interpret n e s = Ret v s' -> inner s -> env_next (env s') = env_next (env s) /\ inner s'.
Proof.
  induction n as [|n IH]; intros e s v s' H I; [discriminate|].
  destruct e as [t|z|b|es|o l r|x|f args|f args|x|e|e|e|c b|c t e|es|x e|e|x e|f ps b|es]; cbn [Toys.interpret] in H; try discriminate.
  1, 2: now inv H.
  - step H. step H. apply of_opt_ret in H. destruct H as [_ ->]. destruct (IH _ _ _ _ E I) as [N1 I1]. destruct (IH _ _ _ _ E0 I1) as [N2 I2]. split; [congruence|exact I2].
  - destruct (find_binding (env s) x); [|discriminate]. apply of_opt_ret in H. now destruct H as [_ ->].
  - destruct (hm_get fns f) as [[ps body]|]; [|discriminate]. step H. step H. step H. inv H. cbn. exact (args_inner _ _ IH E I).
  - destruct (hm_get fns f) as [[ps body]|]; [|discriminate]. step H. step H. inv H. cbn. exact (args_inner _ _ IH E I).
  - step H. inv H. cbn. exact (IH _ _ _ _ E I).
  - step H. step H. apply of_opt_ret in E0. destruct E0 as [_ ->]. destruct (IH _ _ _ _ E I) as [N1 I1]. destruct a0; [|now inv H].
    step H. destruct (IH _ _ _ _ E0 I1) as [N2 I2]. destruct (IH _ _ _ _ H I2) as [N3 I3]. split; [congruence|exact I3].
  - step H. step H. apply of_opt_ret in E0. destruct E0 as [_ ->]. destruct (IH _ _ _ _ E I) as [N1 I1]. destruct a0; [|destruct e as [e|]; [|now inv H]];
      destruct (IH _ _ _ _ H I1) as [N2 I2]; (split; [congruence|exact I2]).
  - exact (block_inner _ _ _ IH H I).
  - rewrite defined_valof in H. step H. destruct (IH _ _ _ _ E I) as [N1 I1]. unfold assign in H.
    assert (S : s' = mk_state (mk_env (hm_set (env_bindings (env s0)) x a) (env_next (env s0))) (out s0) /\ valof (env_next (env s0)) x = None).
    { destruct (valof (chain s) x) eqn:V.
      - destruct (hm_get (env_bindings (env s0)) x) eqn:B; [|discriminate]. inv H. split; [reflexivity|]. exact (I1 _ _ B).
      - inv H. split; [reflexivity|]. rewrite N1. unfold chain in V. rewrite valof_cons in V. now destruct (hm_get _ x). }
    destruct S as [-> S]. cbn. split; [exact N1|]. intros y w. cbn. rewrite hm_get_set. destruct (list_eq_dec N.eq_dec y x) as [->|]; [now intros _|]. apply I1.
  - exact (IH _ _ _ _ H I).
Qed.
Lemma ev_inner : forall e s v s', ev e s (Some v) s' -> inner s -> env_next (env s') = env_next (env s) /\ inner s'.
Proof. intros e s v s' H I. apply interpret_ev in H. destruct H as [n H]. exact (@interpret_inner n e s v s' H I). Qed.
Lemma evs_inner : forall es s vs s', evs es s (Some vs) s' -> inner s -> env_next (env s') = env_next (env s) /\ inner s'.
Proof.
  intros es s vs s' H. destruct (proj2 (interpret_complete checked fns) _ _ _ _ H) as [n K]. specialize (K n (le_n n)). eapply args_inner; [|exact K]. exact (@interpret_inner n).
Qed.
Lemma inner_empty : forall s, env_bindings (env s) = [] -> inner s.
Proof. intros s E x v H. now rewrite E in H. Qed.

(** What the enclosing frames define stays the same in all calls that are nested. *)
Definition grows (s u : state) : Prop := env_bindings (env u) = [] /\ forall x v, valof (env_next (env s)) x = Some v -> valof (env_next (env u)) x = Some v.
Lemma grows_next : forall s s1 u, env_next (env s1) = env_next (env s) -> grows s1 u -> grows s u.
Proof. intros s s1 u N [E G]. split; [exact E|]. now rewrite <- N. Qed.
Lemma grows_fresh : forall s, inner s -> grows s (fresh s).
Proof.
  intros s I. split; [reflexivity|]. intros x v H. cbn. unfold chain. rewrite valof_cons. destruct (hm_get _ x) eqn:B; [|exact H]. apply I in B. congruence.
Qed.
Lemma grows_trans : forall s u w, grows s u -> grows u w -> grows s w.
Proof. intros s u w [_ G] [E G']. split; [exact E|auto]. Qed.
Lemma enters_grows : (forall e s fs g u, enters e s fs g u -> inner s -> grows s u) /\ (forall es s fs g u, enters_list es s fs g u -> inner s -> grows s u).
Proof.
  apply enters_ind2; intros; eauto.
  all: repeat match goal with
       | H : ev ?e ?s (Some _) ?s1, I : inner ?s |- _ => let N := fresh "N" in let I' := fresh "I" in destruct (ev_inner H I) as [N I']; clear H
       | H : evs ?e ?s (Some _) ?s1, I : inner ?s |- _ => let N := fresh "N" in let I' := fresh "I" in destruct (evs_inner H I) as [N I']; clear H
       end.
  all: try (eapply grows_next; [eassumption|now auto]).
  all: try (eapply grows_next; [eassumption|]; now apply grows_fresh).
  - eapply grows_next; [etransitivity; eassumption|auto].
  - eapply grows_next; [eassumption|]. eapply grows_trans; [now apply grows_fresh|]. auto using inner_empty.
  - eapply grows_next; [eassumption|]. eapply grows_trans; [now apply grows_fresh|]. auto using inner_empty.
Qed.

(** ** Two runs that differ in what the enclosing frames define *)
Section Sim.
Variable D : name -> bool.
(** [t] is [s] with the names of [D] defined in an enclosing frame; [s] does not know them. *)
Definition rel (s t : state) : Prop := env_bindings (env s) = env_bindings (env t) /\
  (forall x, D x = true -> valof (chain s) x = None /\ exists v, valof (env_next (env t)) x = Some v) /\
  forall x, D x = false -> valof (env_next (env s)) x = valof (env_next (env t)) x.
(** A run that returns is followed by the run that knows less, until the latter panics. *)
Definition follows {A} (r r' : result A) : Prop :=
  match r' with Ret v t => match r with Ret w s => w = v /\ rel s t | Pan _ => True | Fuel => False end | _ => True end.
Lemma follows_bind : forall A B (r r' : result A) (k k' : A -> state -> result B), follows r r' -> (forall a s t, rel s t -> follows (k a s) (k' a t)) -> follows (bind r k) (bind r' k').
Proof.
  intros A B [a s|s|] [b t|t|] k k' F H; cbn in *; try exact I; try easy; [destruct F as [-> F]; now apply H|]. now destruct (k' b t).
Qed.
Lemma follows_opt : forall A (o : option A) s t, rel s t -> follows (of_opt o s) (of_opt o t).
Proof. intros A [a|] s t R; cbn; auto. Qed.
Lemma rel_env : forall s t s' t', rel s t -> env s' = env s -> env t' = env t -> rel s' t'.
Proof. intros s t s' t' R E F. unfold rel, chain in *. now rewrite E, F. Qed.
Lemma rel_fresh : forall s t, rel s t -> rel (fresh s) (fresh t).
Proof.
  intros s t (B & HD & HN). split; [reflexivity|]. split; cbn.
  - intros x Hx. destruct (HD x Hx) as [V [v W]]. split; [change (valof ([] :: chain s) x = None); now rewrite valof_cons|]. unfold chain. rewrite valof_cons. destruct (hm_get _ x); eauto.
  - intros x Hx. unfold chain. rewrite !valof_cons, B, (HN x Hx). reflexivity.
Qed.
Lemma rel_valof : forall s t x, rel s t -> D x = false -> valof (chain s) x = valof (chain t) x.
Proof. intros s t x (B & _ & HN) Hx. unfold chain. now rewrite !valof_cons, B, (HN x Hx). Qed.
Lemma args_follows : forall (go go' : expr -> state -> result value), (forall e s t, rel s t -> follows (go e s) (go' e t)) -> forall es s t, rel s t -> follows (eval_args go es s) (eval_args go' es t).
Proof.
  intros go go' G es. induction es as [|e es IH]; intros s t R; cbn [eval_args]; [cbn; auto|]. apply follows_bind; [now apply G|]. intros a s1 t1 R1.
  apply follows_bind; [now apply IH|]. intros vs s2 t2 R2. cbn. auto.
Qed.
Lemma block_follows : forall (go go' : expr -> state -> result value), (forall e s t, rel s t -> follows (go e s) (go' e t)) -> forall es v s t, rel s t -> follows (eval_block go es v s) (eval_block go' es v t).
Proof.
  intros go go' G es. induction es as [|e es IH]; intros v s t R; cbn [eval_block]; [now apply follows_opt|]. apply follows_bind; [now apply G|]. intros a s1 t1 R1. now apply IH.
Qed.
Lemma interpret_follows : forall n e s t, rel s t -> follows (interpret n e s) (interpret n e t).
Proof.
  induction n as [|n IH]; intros e s t R; [exact I|].
  destruct e as [q|z|b|es|o l r|x|f args|f args|x|e|e|e|c b|c q e|es|x e|e|x e|f ps b|es].
  6: { rewrite !symbol_valof. destruct (D x) eqn:Hx; [|rewrite (rel_valof R Hx); now apply follows_opt]. destruct R as (B & HD & HN). destruct (HD x Hx) as [-> _]. cbn. destruct (valof (chain t) x); cbn; exact I. }
  all: cbn [Toys.interpret]; try (cbn; now auto).
  - apply follows_bind; [now apply IH|]. intros a s1 t1 R1. apply follows_bind; [now apply IH|]. intros b s2 t2 R2. now apply follows_opt.
  - destruct (hm_get fns f) as [[ps body]|]; [|exact I]. apply follows_bind; [now apply args_follows|]. intros vs s1 t1 R1. unfold bind_params. destruct (length vs <? length ps); [exact I|]. cbn [bind].
    apply follows_bind; [now apply IH, rel_fresh|]. intros v s2 t2 R2. cbn. split; [reflexivity|]. now apply rel_env with (s := s1) (t := t1).
  - destruct (hm_get fns f) as [[ps body]|]; [|exact I]. apply follows_bind; [now apply args_follows|]. intros vs s1 t1 R1.
    apply follows_bind; [now apply IH, rel_fresh|]. intros v s2 t2 R2. cbn. split; [reflexivity|]. now apply rel_env with (s := s1) (t := t1).
  - apply follows_bind; [now apply IH|]. intros v s1 t1 R1. cbn. split; [reflexivity|]. now apply rel_env with (s := s1) (t := t1).
  - apply follows_bind; [now apply IH|]. intros v s1 t1 R1. apply follows_bind; [now apply follows_opt|]. intros [] s2 t2 R2; [|cbn; auto].
    apply follows_bind; [now apply IH|]. intros _ s3 t3 R3. now apply IH.
  - apply follows_bind; [now apply IH|]. intros v s1 t1 R1. apply follows_bind; [now apply follows_opt|]. intros [] s2 t2 R2; [now apply IH|]. destruct e; [now apply IH|cbn; auto].
  - now apply block_follows.
  - rewrite !defined_valof. apply follows_bind; [now apply IH|]. intros v s1 t1 R1. destruct (D x) eqn:Hx.
    + destruct R as (_ & HD & _). destruct (HD x Hx) as [_ [w W]]. destruct R1 as (B1 & HD1 & _). destruct (HD1 x Hx) as [V1 _]. unfold chain in *. rewrite valof_cons in V1. rewrite (valof_cons (env_bindings (env t))), W.
      unfold assign. rewrite <- B1. destruct (hm_get (env_bindings (env s1)) x); [discriminate|]. destruct (hm_get (env_bindings (env t)) x); exact I.
    + rewrite (rel_valof R Hx). unfold assign. destruct R1 as (B1 & HD1 & HN1).
      assert (Q : rel (mk_state (mk_env (hm_set (env_bindings (env s1)) x v) (env_next (env s1))) (out s1)) (mk_state (mk_env (hm_set (env_bindings (env t1)) x v) (env_next (env t1))) (out t1))).
      { split; [cbn; now rewrite B1|]. split; [|exact HN1]. intros y Hy. destruct (HD1 y Hy) as [V1 W1]. split; [|exact W1]. unfold chain in *. cbn. rewrite valof_cons in *. rewrite hm_get_set.
        destruct (list_eq_dec N.eq_dec y x) as [->|]; [congruence|exact V1]. }
      rewrite <- B1 in *. destruct (valof (chain t) x); [destruct (hm_get (env_bindings (env s1)) x)|]; cbn; auto.
Qed.
Lemma evs_det : forall es s r1 s1 r2 s2, evs es s r1 s1 -> evs es s r2 s2 -> r1 = r2 /\ s1 = s2.
Proof.
  intros es s r1 s1 r2 s2 H1 H2. apply (interpret_complete checked fns) in H1, H2. destruct H1 as [n1 H1], H2 as [n2 H2].
  specialize (H1 (n1 + n2) ltac:(lia)). specialize (H2 (n1 + n2) ltac:(lia)). rewrite H1 in H2. destruct r1, r2; cbn in H2; inversion H2; now split.
Qed.
Lemma ev_follow : forall e s a s1 n t b t1, ev e s (Some a) s1 -> rel s t -> interpret n e t = Ret b t1 -> a = b /\ rel s1 t1 /\ ev e t (Some b) t1.
Proof.
  intros e s a s1 n t b t1 H R E. pose proof (interpret_follows n e R) as F. pose proof (interpret_sound checked fns n e s) as K. pose proof (interpret_sound checked fns n e t) as L.
  rewrite E in F, L. cbn in F, L. destruct (interpret n e s) as [c s2|s2|]; cbn in F, K; [|destruct (ev_det H K); discriminate|contradiction].
  destruct F as [-> F]. destruct (ev_det H K) as [Q ->]. inv Q. auto.
Qed.
Lemma evs_follow : forall es s a s1 n t b t1, evs es s (Some a) s1 -> rel s t -> eval_args (interpret n) es t = Ret b t1 -> a = b /\ rel s1 t1 /\ evs es t (Some b) t1.
Proof.
  intros es s a s1 n t b t1 H R E. pose proof (args_follows (interpret n) (interpret n) (interpret_follows n) es R) as F.
  pose proof (@args_sound checked fns (interpret n) es s (interpret_sound checked fns n)) as K. pose proof (@args_sound checked fns (interpret n) es t (interpret_sound checked fns n)) as L.
  rewrite E in F, L. cbn in F, L. destruct (eval_args (interpret n) es s) as [c s2|s2|]; cbn in F, K; [|destruct (evs_det H K); discriminate|contradiction].
  destruct F as [-> F]. destruct (evs_det H K) as [Q ->]. inv Q. auto.
Qed.
Lemma block_args : forall go es w s v s', eval_block go es w s = Ret v s' -> exists vs, eval_args go es s = Ret vs s'.
Proof.
  intros go es. induction es as [|e es IH]; intros w s v s' H; cbn [eval_block] in H; [apply of_opt_ret in H; destruct H as [_ ->]; now exists []|].
  step H. destruct (IH _ _ _ _ H) as [vs K]. exists (a :: vs). cbn [eval_args]. rewrite E. cbn [bind]. now rewrite K.
Qed.
(** Where the run that knows less enters a function, the run that returns enters it too, and that call returns with less fuel. *)
Lemma enters_follow :
  (forall e s fs g u, enters e s fs g u -> forall n t v t', rel s t -> interpret n e t = Ret v t' ->
    exists j u' ps body w w', j < n /\ rel u u' /\ enters e t fs g u' /\ hm_get fns g = Some (ps, body) /\ interpret j body u' = Ret w w') /\
  (forall es s fs g u, enters_list es s fs g u -> forall n t vs t', rel s t -> eval_args (interpret n) es t = Ret vs t' ->
    exists j u' ps body w w', j < n /\ rel u u' /\ enters_list es t fs g u' /\ hm_get fns g = Some (ps, body) /\ interpret j body u' = Ret w w').
Proof.
  Ltac found H1 := let j := fresh "j" in let u' := fresh "u'" in let ps := fresh "ps" in let body := fresh "body" in let w := fresh "w" in let w' := fresh "w'" in
    let L := fresh "L" in let R' := fresh "R'" in let N := fresh "N" in let G := fresh "G" in let K := fresh "K" in
    edestruct H1 as (j & u' & ps & body & w & w' & L & R' & N & G & K); [eassumption|eassumption|]; exists j, u', ps, body, w, w'; (split; [lia|]); (split; [exact R'|]); (split; [|split; [exact G|exact K]]).
  Ltac go := repeat match goal with
    | H : bind _ _ = Ret _ _ |- _ => step H
    | H : of_opt _ _ = Ret _ _ |- _ => apply of_opt_ret in H; destruct H as [H ->]
    | H : as_bool (VBool _) = Some _ |- _ => cbn [as_bool] in H; injection H as <-
    | V : ev ?e ?s (Some ?a) ?s1, R : rel ?s ?t, E : interpret ?n ?e ?t = Ret ?b ?t1 |- _ => destruct (ev_follow n V R E) as (<- & ? & ?); clear V
    | V : evs ?e ?s (Some ?a) ?s1, R : rel ?s ?t, E : eval_args (interpret ?n) ?e ?t = Ret ?b ?t1 |- _ => destruct (evs_follow n V R E) as (<- & ? & ?); clear V
    end.
  apply enters_ind2.
  - intros o l r s fs g u _ IH n t v t' R H. destruct n as [|n]; [discriminate|]. cbn [Toys.interpret] in H. go. found IH. now apply en_left.
  - intros o l r s a s1 fs g u V _ IH n t v t' R H. destruct n as [|n]; [discriminate|]. cbn [Toys.interpret] in H. go. found IH. now apply en_right with (a := a) (s1 := s0).
  - intros x e s fs g u _ IH n t v t' R H. destruct n as [|n]; [discriminate|]. cbn [Toys.interpret] in H. go. found IH. now apply en_assign.
  - intros e s fs g u _ IH n t v t' R H. destruct n as [|n]; [discriminate|]. cbn [Toys.interpret] in H. go. found IH. now apply en_println.
  - intros e s fs g u _ IH n t v t' R H. destruct n as [|n]; [discriminate|]. cbn [Toys.interpret] in H. found IH. now apply en_paren.
  - intros c q e s fs g u _ IH n t v t' R H. destruct n as [|n]; [discriminate|]. cbn [Toys.interpret] in H. go. found IH. now apply en_if.
  - intros c q e s s1 fs g u V _ IH n t v t' R H. destruct n as [|n]; [discriminate|]. cbn [Toys.interpret] in H. go. found IH. eapply en_then; eauto.
  - intros c q e s s1 fs g u V _ IH n t v t' R H. destruct n as [|n]; [discriminate|]. cbn [Toys.interpret] in H. go. found IH. eapply en_else; eauto.
  - intros c b s fs g u _ IH n t v t' R H. destruct n as [|n]; [discriminate|]. cbn [Toys.interpret] in H. go. found IH. now apply en_cond.
  - intros c b s s1 fs g u V _ IH n t v t' R H. destruct n as [|n]; [discriminate|]. cbn [Toys.interpret] in H. go. found IH. eapply en_body; eauto.
  - intros c b s s1 w s2 fs g u V W _ IH n t v t' R H. destruct n as [|n]; [discriminate|]. cbn [Toys.interpret] in H. go. found IH. now eapply en_again; eauto.
  - intros es s fs g u _ IH n t v t' R H. destruct n as [|n]; [discriminate|]. cbn [Toys.interpret] in H. apply block_args in H. destruct H as [vs H]. found IH. now apply en_block.
  - intros f d args s fs g u F _ IH n t v t' R H. destruct n as [|n]; [discriminate|]. cbn [Toys.interpret] in H. rewrite F in H. destruct d as [ps0 body0]. go. found IH. eapply en_args; eauto.
  - intros f ps body args s vs s1 F V L n t v t' R H. destruct n as [|n]; [discriminate|]. cbn [Toys.interpret] in H. rewrite F in H. go. unfold bind_params in E0. destruct (_ <? _); [discriminate|]. inv E0.
    exists n, (fresh s0), ps, body. do 2 eexists. split; [lia|]. split; [now apply rel_fresh|]. split; [eapply en_call; eauto|]. split; [exact F|exact E1].
  - intros f ps body args s vs s1 fs g u F V L _ IH n t v t' R H. destruct n as [|n]; [discriminate|]. cbn [Toys.interpret] in H. rewrite F in H. go. unfold bind_params in E0. destruct (_ <? _); [discriminate|]. inv E0.
    assert (R0 : rel (fresh s1) (push_frame s0)) by now apply rel_fresh. found IH. eapply en_in; eauto.
  - intros f d args s fs g u F _ IH n t v t' R H. destruct n as [|n]; [discriminate|]. cbn [Toys.interpret] in H. rewrite F in H. destruct d as [ps0 body0]. go. found IH. eapply en_largs; eauto.
  - intros f [ps body] args s vs s1 F V n t v t' R H. destruct n as [|n]; [discriminate|]. cbn [Toys.interpret] in H. rewrite F in H. go.
    exists n, (fresh s0), ps, body. do 2 eexists. split; [lia|]. split; [now apply rel_fresh|]. split; [eapply en_lcall; eauto|]. split; [exact F|exact E0].
  - intros f ps body args s vs s1 fs g u F V _ IH n t v t' R H. destruct n as [|n]; [discriminate|]. cbn [Toys.interpret] in H. rewrite F in H. go.
    assert (R0 : rel (fresh s1) (push_frame s0)) by now apply rel_fresh. found IH. eapply en_lin; eauto.
  - intros e es s fs g u _ IH n t vs t' R H. cbn [eval_args] in H. go. found IH. now apply en_here.
  - intros e es s w s1 fs g u V _ IH n t vs t' R H. cbn [eval_args] in H. go. found IH. eapply en_later; eauto.
Qed.
End Sim.

(** ** Runs that end, with a value or a panic *)
(** The same frame, and the same view of the frames around it. *)
Definition alike (s t : state) : Prop := env_bindings (env s) = env_bindings (env t) /\ forall x, valof (env_next (env s)) x = valof (env_next (env t)) x.
Definition both {A} (r r' : result A) : Prop :=
  match r, r' with Ret v s, Ret w t => v = w /\ alike s t | Pan _, Pan _ => True | Fuel, Fuel => True | _, _ => False end.
Lemma both_bind : forall A B (r r' : result A) (k k' : A -> state -> result B), both r r' -> (forall a s t, alike s t -> both (k a s) (k' a t)) -> both (bind r k) (bind r' k').
Proof. intros A B [a s|s|] [b t|t|] k k' F H; cbn in *; try exact I; try easy. destruct F as [-> F]. now apply H. Qed.
Lemma both_opt : forall A (o : option A) s t, alike s t -> both (of_opt o s) (of_opt o t).
Proof. intros A [a|] s t R; cbn; auto. Qed.
Lemma alike_env : forall s t s' t', alike s t -> env s' = env s -> env t' = env t -> alike s' t'.
Proof. intros s t s' t' R E F. unfold alike in *. now rewrite E, F. Qed.
Lemma alike_valof : forall s t x, alike s t -> valof (chain s) x = valof (chain t) x.
Proof. intros s t x (B & HN). unfold chain. now rewrite !valof_cons, B, (HN x). Qed.
Lemma alike_fresh : forall s t, alike s t -> alike (fresh s) (fresh t).
Proof. intros s t R. split; [reflexivity|]. intros x. now apply alike_valof. Qed.
Lemma args_both : forall (go go' : expr -> state -> result value), (forall e s t, alike s t -> both (go e s) (go' e t)) -> forall es s t, alike s t -> both (eval_args go es s) (eval_args go' es t).
Proof.
  intros go go' G es. induction es as [|e es IH]; intros s t R; cbn [eval_args]; [cbn; auto|]. apply both_bind; [now apply G|]. intros a s1 t1 R1.
  apply both_bind; [now apply IH|]. intros vs s2 t2 R2. cbn. auto.
Qed.
Lemma block_both : forall (go go' : expr -> state -> result value), (forall e s t, alike s t -> both (go e s) (go' e t)) -> forall es v s t, alike s t -> both (eval_block go es v s) (eval_block go' es v t).
Proof.
  intros go go' G es. induction es as [|e es IH]; intros v s t R; cbn [eval_block]; [now apply both_opt|]. apply both_bind; [now apply G|]. intros a s1 t1 R1. now apply IH.
Qed.
Lemma interpret_both : forall n e s t, alike s t -> both (interpret n e s) (interpret n e t).
Proof.
  induction n as [|n IH]; intros e s t R; [exact I|].
  destruct e as [q|z|b|es|o l r|x|f args|f args|x|e|e|e|c b|c q e|es|x e|e|x e|f ps b|es].
  6: { rewrite !symbol_valof, (alike_valof x R). now apply both_opt. }
  all: cbn [Toys.interpret]; try (cbn; now auto).
  - apply both_bind; [now apply IH|]. intros a s1 t1 R1. apply both_bind; [now apply IH|]. intros b s2 t2 R2. now apply both_opt.
  - destruct (hm_get fns f) as [[ps body]|]; [|exact I]. apply both_bind; [now apply args_both|]. intros vs s1 t1 R1. unfold bind_params. destruct (length vs <? length ps); [exact I|]. cbn [bind].
    apply both_bind; [now apply IH, alike_fresh|]. intros v s2 t2 R2. cbn. split; [reflexivity|]. now apply alike_env with (s := s1) (t := t1).
  - destruct (hm_get fns f) as [[ps body]|]; [|exact I]. apply both_bind; [now apply args_both|]. intros vs s1 t1 R1.
    apply both_bind; [now apply IH, alike_fresh|]. intros v s2 t2 R2. cbn. split; [reflexivity|]. now apply alike_env with (s := s1) (t := t1).
  - apply both_bind; [now apply IH|]. intros v s1 t1 R1. cbn. split; [reflexivity|]. now apply alike_env with (s := s1) (t := t1).
  - apply both_bind; [now apply IH|]. intros v s1 t1 R1. apply both_bind; [now apply both_opt|]. intros [] s2 t2 R2; [|cbn; auto].
    apply both_bind; [now apply IH|]. intros _ s3 t3 R3. now apply IH.
  - apply both_bind; [now apply IH|]. intros v s1 t1 R1. apply both_bind; [now apply both_opt|]. intros [] s2 t2 R2; [now apply IH|]. destruct e; [now apply IH|cbn; auto].
  - now apply block_both.
  - rewrite !defined_valof. rewrite (alike_valof x R). apply both_bind; [now apply IH|]. intros v s1 t1 [B1 N1]. unfold assign. rewrite <- B1.
    destruct (valof (chain t) x); [destruct (hm_get (env_bindings (env s1)) x)|]; cbn; auto; (split; [reflexivity|]); (split; [cbn; now rewrite B1|exact N1]).
Qed.
Lemma alike_ends : forall n e s t, alike s t -> interpret n e s = Fuel -> interpret n e t = Fuel.
Proof. intros n e s t R H. pose proof (interpret_both n e R) as K. rewrite H in K. now destruct (interpret n e t). Qed.

(** In a run that ends, every call that is entered ends too, with less fuel. *)
Lemma ev_at : forall e s a s1 n, ev e s (Some a) s1 -> interpret n e s <> Fuel -> interpret n e s = Ret a s1.
Proof.
  intros e s a s1 n H E. pose proof (interpret_sound checked fns n e s) as K. destruct (interpret n e s) as [b t|t|]; cbn in K; [| |congruence]; destruct (ev_det H K) as [Q ->]; congruence.
Qed.
Lemma evs_at : forall es s a s1 n, evs es s (Some a) s1 -> eval_args (interpret n) es s <> Fuel -> eval_args (interpret n) es s = Ret a s1.
Proof.
  intros e s a s1 n H E. pose proof (@args_sound checked fns (interpret n) e s (interpret_sound checked fns n)) as K. destruct (eval_args (interpret n) e s) as [b t|t|]; cbn in K; [| |congruence]; destruct (evs_det H K) as [Q ->]; congruence.
Qed.
Lemma block_ends : forall go es w s, eval_block go es w s <> Fuel -> eval_args go es s <> Fuel.
Proof.
  intros go es. induction es as [|e es IH]; intros w s H; cbn [eval_block eval_args] in *; [discriminate|]. destruct (go e s) as [v s1|s1|]; cbn [bind] in *; [|discriminate|congruence].
  specialize (IH _ _ H). destruct (eval_args go es s1); cbn; congruence.
Qed.
Lemma bind_ends : forall A B (r : result A) (k : A -> state -> result B), bind r k <> Fuel -> r <> Fuel.
Proof. intros A B [a s|s|] k H; cbn in *; congruence. Qed.
Lemma enters_ends :
  (forall e s fs g u, enters e s fs g u -> forall n, interpret n e s <> Fuel -> exists j ps body, j < n /\ hm_get fns g = Some (ps, body) /\ interpret j body u <> Fuel) /\
  (forall es s fs g u, enters_list es s fs g u -> forall n, eval_args (interpret n) es s <> Fuel -> exists j ps body, j < n /\ hm_get fns g = Some (ps, body) /\ interpret j body u <> Fuel).
Proof.
  Ltac less IH n := let j := fresh "j" in let ps := fresh "ps" in let body := fresh "body" in let L := fresh "L" in let R := fresh "R" in
    edestruct (IH n) as (j & ps & body & L & R); [|exists j, ps, body; (split; [lia|exact R])].
  Ltac at_ V := match type of V with ToysSpec.ev _ _ ?e ?s (Some ?a) ?s1 => match goal with H : bind (interpret ?n e s) _ <> Fuel |- _ => rewrite (ev_at n V (@bind_ends _ _ _ _ H)) in H; cbn [bind as_bool of_opt] in H end
    | ToysSpec.evs _ _ ?e ?s (Some ?a) ?s1 => match goal with H : bind (eval_args (interpret ?n) e s) _ <> Fuel |- _ => rewrite (evs_at n V (@bind_ends _ _ _ _ H)) in H; cbn [bind as_bool of_opt] in H end end.
  apply enters_ind2.
  - intros o l r s fs g u _ IH n H. destruct n as [|n]; [now destruct H|]. cbn [Toys.interpret] in H. less IH n. exact (@bind_ends _ _ _ _ H).
  - intros o l r s a s1 fs g u V _ IH n H. destruct n as [|n]; [now destruct H|]. cbn [Toys.interpret] in H. at_ V. less IH n. exact (@bind_ends _ _ _ _ H).
  - intros x e s fs g u _ IH n H. destruct n as [|n]; [now destruct H|]. cbn [Toys.interpret] in H. less IH n. exact (@bind_ends _ _ _ _ H).
  - intros e s fs g u _ IH n H. destruct n as [|n]; [now destruct H|]. cbn [Toys.interpret] in H. less IH n. exact (@bind_ends _ _ _ _ H).
  - intros e s fs g u _ IH n H. destruct n as [|n]; [now destruct H|]. cbn [Toys.interpret] in H. less IH n. exact H.
  - intros c q e s fs g u _ IH n H. destruct n as [|n]; [now destruct H|]. cbn [Toys.interpret] in H. less IH n. exact (@bind_ends _ _ _ _ H).
  - intros c q e s s1 fs g u V _ IH n H. destruct n as [|n]; [now destruct H|]. cbn [Toys.interpret] in H. at_ V. less IH n. exact H.
  - intros c q e s s1 fs g u V _ IH n H. destruct n as [|n]; [now destruct H|]. cbn [Toys.interpret] in H. at_ V. less IH n. exact H.
  - intros c b s fs g u _ IH n H. destruct n as [|n]; [now destruct H|]. cbn [Toys.interpret] in H. less IH n. exact (@bind_ends _ _ _ _ H).
  - intros c b s s1 fs g u V _ IH n H. destruct n as [|n]; [now destruct H|]. cbn [Toys.interpret] in H. at_ V. less IH n. exact (@bind_ends _ _ _ _ H).
  - intros c b s s1 w s2 fs g u V W _ IH n H. destruct n as [|n]; [now destruct H|]. cbn [Toys.interpret] in H. at_ V. at_ W. less IH n. exact H.
  - intros es s fs g u _ IH n H. destruct n as [|n]; [now destruct H|]. cbn [Toys.interpret] in H. less IH n. exact (@block_ends _ _ _ _ H).
  - intros f [ps0 body0] args s fs g u F _ IH n H. destruct n as [|n]; [now destruct H|]. cbn [Toys.interpret] in H. rewrite F in H. less IH n. exact (@bind_ends _ _ _ _ H).
  - intros f ps body args s vs s1 F V L n H. destruct n as [|n]; [now destruct H|]. cbn [Toys.interpret] in H. rewrite F in H. at_ V. unfold bind_params in H. destruct (Nat.ltb_spec (length vs) (length ps)); [lia|]. cbn [bind] in H.
    exists n, ps, body. split; [lia|]. split; [exact F|exact (@bind_ends _ _ _ _ H)].
  - intros f ps body args s vs s1 fs g u F V L _ IH n H. destruct n as [|n]; [now destruct H|]. cbn [Toys.interpret] in H. rewrite F in H. at_ V. unfold bind_params in H. destruct (Nat.ltb_spec (length vs) (length ps)); [lia|]. cbn [bind] in H.
    less IH n. exact (@bind_ends _ _ _ _ H).
  - intros f [ps0 body0] args s fs g u F _ IH n H. destruct n as [|n]; [now destruct H|]. cbn [Toys.interpret] in H. rewrite F in H. less IH n. exact (@bind_ends _ _ _ _ H).
  - intros f [ps body] args s vs s1 F V n H. destruct n as [|n]; [now destruct H|]. cbn [Toys.interpret] in H. rewrite F in H. at_ V.
    exists n, ps, body. split; [lia|]. split; [exact F|exact (@bind_ends _ _ _ _ H)].
  - intros f ps body args s vs s1 fs g u F V _ IH n H. destruct n as [|n]; [now destruct H|]. cbn [Toys.interpret] in H. rewrite F in H. at_ V. less IH n. exact (@bind_ends _ _ _ _ H).
  - intros e es s fs g u _ IH n H. cbn [eval_args] in H. less IH n. exact (@bind_ends _ _ _ _ H).
  - intros e es s w s1 fs g u V _ IH n H. cbn [eval_args] in H. at_ V. less IH n. exact (@bind_ends _ _ _ _ H).
Qed.

(** ** Which names the frames around a call can have *)
Section Named.
Variable A : name -> Prop.
Definition framed (s : state) : Prop := forall x v, hm_get (env_bindings (env s)) x = Some v -> A x.
Definition bodies : Prop := forall f ps body x, hm_get fns f = Some (ps, body) -> assigns x body -> A x.
Definition named (s u : state) : Prop := forall x v, valof (env_next (env u)) x = Some v -> (exists w, valof (env_next (env s)) x = Some w) \/ A x.
Hypothesis dec : forall x, A x \/ ~ A x.
Hypothesis HB : bodies.
Lemma kept_framed : forall s s', kept A s s' -> framed s -> framed s'.
Proof. intros s s' [_ K] F x v H. destruct (dec x) as [Hx|Hx]; [exact Hx|]. rewrite (K x Hx) in H. now apply F in H. Qed.
Lemma ev_framed : forall e s v s', ev e s (Some v) s' -> (forall x, assigns x e -> A x) -> framed s -> env_next (env s') = env_next (env s) /\ framed s'.
Proof.
  intros e s v s' H HA F. apply interpret_ev in H. destruct H as [n H]. apply interpret_kept in H. split; [apply H|]. eapply kept_framed; [|exact F]. eapply kept_weak; [exact H|exact HA].
Qed.
Lemma evs_framed : forall es s vs s', evs es s (Some vs) s' -> (forall x e, In e es -> assigns x e -> A x) -> framed s -> env_next (env s') = env_next (env s) /\ framed s'.
Proof.
  intros es s vs s' H HA F. destruct (proj2 (interpret_complete checked fns) _ _ _ _ H) as [n K]. specialize (K n (le_n n)).
  apply args_kept in K; [|intros; eapply interpret_kept; eassumption]. split; [apply K|]. eapply kept_framed; [|exact F]. eapply kept_weak; [exact K|]. intros x (e & I & Ha). eauto.
Qed.
Lemma named_next : forall s s1 u, env_next (env s1) = env_next (env s) -> named s1 u -> named s u.
Proof. intros s s1 u N H x v V. destruct (H x v V) as [[w W]|W]; [left; exists w; now rewrite <- N|now right]. Qed.
Lemma named_fresh : forall s, framed s -> named s (fresh s).
Proof. intros s F x v V. cbn in V. unfold chain in V. rewrite valof_cons in V. destruct (hm_get _ x) eqn:E; [right; exact (F _ _ E)|left; eauto]. Qed.
Lemma named_trans : forall s u w, named s u -> named u w -> named s w.
Proof. intros s u w H K x v V. destruct (K x v V) as [[v' W]|W]; [exact (H x v' W)|now right]. Qed.
Lemma framed_fresh : forall s, framed (fresh s).
Proof. intros s x v H. discriminate. Qed.
Lemma enters_named :
  (forall e s fs g u, enters e s fs g u -> (forall x, assigns x e -> A x) -> framed s -> named s u) /\
  (forall es s fs g u, enters_list es s fs g u -> (forall x e, In e es -> assigns x e -> A x) -> framed s -> named s u).
Proof.
  Ltac sub := let x := fresh "x" in let Hx := fresh "Hx" in intros x Hx; match goal with HA : forall y, assigns y _ -> A y |- _ => apply HA; (econstructor; now eauto) end.
  Ltac nx V := match type of V with ToysSpec.ev _ _ _ _ _ _ => edestruct (ev_framed V) as [? ?]; [|eassumption|] | ToysSpec.evs _ _ _ _ _ _ => edestruct (evs_framed V) as [? ?]; [|eassumption|] end.
  apply enters_ind2.
  - intros o l r s fs g u _ IH HA F. apply IH; [sub|exact F].
  - intros o l r s a s1 fs g u V _ IH HA F. nx V; [sub|]. eapply named_next; [eassumption|]. apply IH; [sub|assumption].
  - intros x e s fs g u _ IH HA F. apply IH; [sub|exact F].
  - intros e s fs g u _ IH HA F. apply IH; [sub|exact F].
  - intros e s fs g u _ IH HA F. apply IH; [sub|exact F].
  - intros c q e s fs g u _ IH HA F. apply IH; [sub|exact F].
  - intros c q e s s1 fs g u V _ IH HA F. nx V; [sub|]. eapply named_next; [eassumption|]. apply IH; [sub|assumption].
  - intros c q e s s1 fs g u V _ IH HA F. nx V; [sub|]. eapply named_next; [eassumption|]. apply IH; [sub|assumption].
  - intros c b s fs g u _ IH HA F. apply IH; [sub|exact F].
  - intros c b s s1 fs g u V _ IH HA F. nx V; [sub|]. eapply named_next; [eassumption|]. apply IH; [sub|assumption].
  - intros c b s s1 w s2 fs g u V W _ IH HA F. nx V; [sub|]. nx W; [sub|]. eapply named_next; [etransitivity; eassumption|]. apply IH; [exact HA|assumption].
  - intros es s fs g u _ IH HA F. apply IH; [|exact F]. intros x e I Ha. apply HA. econstructor; eauto.
  - intros f d args s fs g u _ _ IH HA F. apply IH; [|exact F]. intros x e I Ha. apply HA. econstructor; eauto.
  - intros f ps body args s vs s1 _ V _ HA F. nx V; [intros x e I Ha; apply HA; econstructor; eauto|]. eapply named_next; [eassumption|]. now apply named_fresh.
  - intros f ps body args s vs s1 fs g u Hf V _ _ IH HA F. nx V; [intros x e I Ha; apply HA; econstructor; eauto|]. eapply named_next; [eassumption|].
    eapply named_trans; [now apply named_fresh|]. apply IH; [intros x; eapply HB; exact Hf|apply framed_fresh].
  - intros f d args s fs g u _ _ IH HA F. apply IH; [|exact F]. intros x e I Ha. apply HA. eapply as_labelled; eauto.
  - intros f d args s vs s1 _ V HA F. nx V; [intros x e I Ha; apply HA; eapply as_labelled; eauto|]. eapply named_next; [eassumption|]. now apply named_fresh.
  - intros f ps body args s vs s1 fs g u Hf V _ IH HA F. nx V; [intros x e I Ha; apply HA; eapply as_labelled; eauto|]. eapply named_next; [eassumption|].
    eapply named_trans; [now apply named_fresh|]. apply IH; [intros x; eapply HB; exact Hf|apply framed_fresh].
  - intros e es s fs g u _ IH HA F. apply IH; [|exact F]. intros x. apply HA. now left.
  - intros e es s w s1 fs g u V _ IH HA F. nx V; [intros x; apply HA; now left|]. eapply named_next; [eassumption|]. apply IH; [|assumption]. intros x d I. apply HA. now right.
Qed.
End Named.
End Nest.
