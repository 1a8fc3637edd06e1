(** C121: a toys interpreter that is used more than once. *)
From Verif Require Import Base Core Comb Closure Text Toys ToysParse ToysObject.
From Coq Require Import ZArith.
Set Implicit Arguments.
Local Open Scope string_scope.
Local Open Scope nat_scope.
Local Open Scope list_scope.

(** ** Which variables and functions an expression names *)
Section Names.
Variable P Q : name -> Prop.
(** The variables [e] reads or assigns are in [P], the functions it calls are in [Q]. *)
Inductive names : expr -> Prop :=
| n_string : forall t, names (EString t)
| n_int : forall z, names (EInt z)
| n_bool : forall b, names (EBool b)
| n_array : forall es, names (EArray es)
| n_ident : forall x, names (EIdentifier x)
| n_plus : forall e, names (EPlus e)
| n_minus : forall e, names (EMinus e)
| n_global : forall x e, names (EGlobal x e)
| n_fun : forall f ps b, names (EFun f ps b)
| n_program : forall es, names (EProgram es)
| n_bin : forall o l r, names l -> names r -> names (EBin o l r)
| n_symbol : forall x, P x -> names (ESymbol x)
| n_call : forall f args, Q f -> Forall names args -> names (ECall f args)
| n_labelled : forall f args, Q f -> Forall names (map snd args) -> names (ELabelled f args)
| n_println : forall e, names e -> names (EPrintln e)
| n_while : forall c b, names c -> names b -> names (EWhile c b)
| n_if : forall c t, names c -> names t -> names (EIf c t None)
| n_if_else : forall c t e, names c -> names t -> names e -> names (EIf c t (Some e))
| n_block : forall es, Forall names es -> names (EBlock es)
| n_assign : forall x e, P x -> names e -> names (EAssign x e)
| n_paren : forall e, names e -> names (EParen e).
End Names.
(** [e] assigns [x] by itself, not in a function it calls. *)
Inductive assigns (x : name) : expr -> Prop :=
| as_here : forall e, assigns x (EAssign x e)
| as_value : forall y e, assigns x e -> assigns x (EAssign y e)
| as_left : forall o l r, assigns x l -> assigns x (EBin o l r)
| as_right : forall o l r, assigns x r -> assigns x (EBin o l r)
| as_call : forall f args e, In e args -> assigns x e -> assigns x (ECall f args)
| as_labelled : forall f args e, In e (map snd args) -> assigns x e -> assigns x (ELabelled f args)
| as_println : forall e, assigns x e -> assigns x (EPrintln e)
| as_cond : forall c b, assigns x c -> assigns x (EWhile c b)
| as_body : forall c b, assigns x b -> assigns x (EWhile c b)
| as_if : forall c t e, assigns x c -> assigns x (EIf c t e)
| as_then : forall c t e, assigns x t -> assigns x (EIf c t e)
| as_else : forall c t e, assigns x e -> assigns x (EIf c t (Some e))
| as_block : forall es e, In e es -> assigns x e -> assigns x (EBlock es)
| as_paren : forall e, assigns x e -> assigns x (EParen e).
Lemma assigns_names : forall (P Q : name -> Prop) x e, assigns x e -> names P Q e -> P x.
Proof.
  intros P Q x e A. induction A; intros H0; inv H0; auto.
  all: match goal with F : Forall _ ?l, I : In _ ?l |- _ => rewrite Forall_forall in F; now apply IHA, F end.
Qed.

(** ** What an expression leaves behind in its frame *)
Definition kept (A : name -> Prop) (s s' : state) : Prop :=
  env_next (env s') = env_next (env s) /\ forall x, ~ A x -> hm_get (env_bindings (env s')) x = hm_get (env_bindings (env s)) x.
Lemma kept_refl : forall A s s', env s' = env s -> kept A s s'.
Proof. intros A s s' E. unfold kept. rewrite E. now split. Qed.
Lemma kept_trans : forall (A B C : name -> Prop) s s1 s2, kept A s s1 -> kept B s1 s2 -> (forall x, A x -> C x) -> (forall x, B x -> C x) -> kept C s s2.
Proof.
  intros A B C s s1 s2 [N1 K1] [N2 K2] HA HB. split; [congruence|]. intros x H. rewrite K2 by auto. apply K1. auto.
Qed.
Lemma kept_env : forall A s s' t, kept A s s' -> env t = env s' -> kept A s t.
Proof. intros A s s' t H E. unfold kept. rewrite E. exact H. Qed.
Lemma kept_weak : forall (A B : name -> Prop) s s', kept A s s' -> (forall x, A x -> B x) -> kept B s s'.
Proof. intros A B s s' [N K] H. split; [exact N|]. intros x Hx. apply K. auto. Qed.
Lemma bind_ret : forall A B (r : result A) (k : A -> state -> result B) b s', bind r k = Ret b s' -> exists a s, r = Ret a s /\ k a s = Ret b s'.
Proof. intros A B [a s|s|] k b s' H; try discriminate. eauto. Qed.
Lemma of_opt_ret : forall A (o : option A) s a s', of_opt o s = Ret a s' -> o = Some a /\ s' = s.
Proof. intros A [x|] s a s' H; inv H. now split. Qed.
Ltac step H := let a := fresh "a" in let s := fresh "s" in let E := fresh "E" in
  apply bind_ret in H; destruct H as (a & s & E & H).

Section Kept.
Variable checked : bool.
Variable fns : functions.
Notation interpret := (interpret checked fns).
Lemma args_kept : forall go es s vs s', (forall e s v s', go e s = Ret v s' -> kept (fun x => assigns x e) s s') ->
  eval_args go es s = Ret vs s' -> kept (fun x => exists e, In e es /\ assigns x e) s s'.
Proof.
  intros go es. induction es as [|e es IH]; intros s vs s' G H; cbn [eval_args] in H; [inv H; now apply kept_refl|].
  step H. step H. inv H. eapply kept_trans; [apply (G _ _ _ _ E)|apply (IH _ _ _ G E0)| |]; cbn; intros x Hx; [eauto|].
  destruct Hx as (e' & I' & A). eauto.
Qed.
Lemma block_kept : forall go es w s v s', (forall e s v s', go e s = Ret v s' -> kept (fun x => assigns x e) s s') ->
  eval_block go es w s = Ret v s' -> kept (fun x => exists e, In e es /\ assigns x e) s s'.
Proof.
  intros go es. induction es as [|e es IH]; intros w s v s' G H; cbn [eval_block] in H; [apply of_opt_ret in H; destruct H as [_ ->]; now apply kept_refl|].
  step H. eapply kept_trans; [apply (G _ _ _ _ E)|apply (IH _ _ _ _ G H)| |]; cbn; intros x Hx; [eauto|].
  destruct Hx as (e' & I' & A). eauto.
Qed.
Lemma interpret_kept : forall fuel e s v s', interpret fuel e s = Ret v s' -> kept (fun x => assigns x e) s s'.
Proof.
  induction fuel as [|fuel IH]; intros e s v s' H; [discriminate|].
  destruct e as [t|z|b|es|o l r|x|f args|f args|x|e|e|e|c b|c t e|es|x e|e|x e|f ps b|es]; cbn [Toys.interpret] in H; try discriminate.
  1, 2: inv H; now apply kept_refl.
  - step H. step H. apply of_opt_ret in H. destruct H as [_ ->].
    eapply kept_trans; [apply (IH _ _ _ _ E)|apply (IH _ _ _ _ E0)| |]; intros x Hx; [now apply as_left|now apply as_right].
  - destruct (find_binding (env s) x); [|discriminate]. apply of_opt_ret in H. destruct H as [_ ->]. now apply kept_refl.
  - destruct (hm_get fns f) as [[ps body]|]; [|discriminate]. step H. step H. step H. inv H.
    eapply kept_env; [|cbn; reflexivity]. eapply kept_weak; [eapply args_kept; [exact IH|exact E]|]. intros x (d & I' & A). now apply as_call with (e := d).
  - destruct (hm_get fns f) as [[ps body]|]; [|discriminate]. step H. step H. inv H.
    eapply kept_env; [|cbn; reflexivity]. eapply kept_weak; [eapply args_kept; [exact IH|exact E]|]. intros x (d & I' & A). now apply as_labelled with (e := d).
  - step H. inv H. eapply kept_env; [|cbn; reflexivity]. eapply kept_weak; [apply (IH _ _ _ _ E)|]. intros x. apply as_println.
  - step H. step H. apply of_opt_ret in E0. destruct E0 as [_ ->]. pose proof (IH _ _ _ _ E) as K. destruct a0.
    + step H. eapply kept_trans; [exact K| |intros x Hx; now apply as_cond|intros x Hx; exact Hx].
      eapply kept_trans; [apply (IH _ _ _ _ E0)|apply (IH _ _ _ _ H)| |intros x Hx; exact Hx]. intros x Hx. now apply as_body.
    + inv H. eapply kept_weak; [exact K|]. intros x Hx. now apply as_cond.
  - step H. step H. apply of_opt_ret in E0. destruct E0 as [_ ->]. pose proof (IH _ _ _ _ E) as K. destruct a0.
    + eapply kept_trans; [exact K|apply (IH _ _ _ _ H)| |]; intros x Hx; [now apply as_if|now apply as_then].
    + destruct e as [e|].
      * eapply kept_trans; [exact K|apply (IH _ _ _ _ H)| |]; intros x Hx; [now apply as_if|now apply as_else].
      * inv H. eapply kept_weak; [exact K|]. intros x Hx. now apply as_if.
  - eapply kept_weak; [eapply block_kept; [exact IH|exact H]|]. intros x (d & I' & A). now apply as_block with (e := d).
  - step H. pose proof (IH _ _ _ _ E) as [N K].
    assert (s' = mk_state (mk_env (hm_set (env_bindings (env s0)) x a) (env_next (env s0))) (out s0)) as ->.
    { unfold assign in H. destruct (find_binding (env s) x); [destruct (hm_get (env_bindings (env s0)) x); [|discriminate]|]; now inv H. }
    split; [exact N|]. intros y Hy. cbn. rewrite hm_get_set. destruct (list_eq_dec N.eq_dec y x) as [->|]; [destruct Hy; constructor|].
    apply K. intros A. apply Hy. now apply as_value.
  - eapply kept_weak; [apply (IH _ _ _ _ H)|]. intros x. apply as_paren.
Qed.
End Kept.

(** ** Interpreters that agree on the names of a program *)
Section Same.
Variable P Q : name -> Prop.
(** The frames are the same, except that the outermost ones agree on [P] only. *)
Inductive same_frames : list bindings -> list bindings -> Prop :=
| sf_base : forall b b', (forall x, P x -> hm_get b x = hm_get b' x) -> same_frames [b] [b']
| sf_frame : forall b bs bs', same_frames bs bs' -> same_frames (b :: bs) (b :: bs').
Definition frames (s : state) : list bindings := env_bindings (env s) :: env_next (env s).
Definition same_state (s t : state) : Prop := same_frames (frames s) (frames t) /\ out s = out t.
Definition same_result {A} (r r' : result A) : Prop :=
  match r, r' with
  | Ret a s, Ret b t => a = b /\ same_state s t
  | Pan s, Pan t => out s = out t
  | Fuel, Fuel => True
  | _, _ => False
  end.
Lemma same_bind : forall A B (r r' : result A) (k k' : A -> state -> result B), same_result r r' ->
  (forall a s t, same_state s t -> same_result (k a s) (k' a t)) -> same_result (bind r k) (bind r' k').
Proof. intros A B [a s|s|] [a' s'|s'|] k k' H K; try contradiction; cbn [bind]; [destruct H as [-> H]; now apply K|exact H|exact I]. Qed.
Lemma same_opt : forall A (o : option A) s t, same_state s t -> same_result (of_opt o s) (of_opt o t).
Proof. intros A [a|] s t H; cbn; [now split|apply H]. Qed.
Lemma same_find : forall bs bs' x, same_frames bs bs' -> P x ->
  match find_chain bs x, find_chain bs' x with Some b, Some b' => hm_get b x = hm_get b' x | None, None => True | _, _ => False end.
Proof.
  intros bs bs' x H Px. induction H as [b b' H|b bs bs' H IH]; cbn.
  - rewrite <- (H x Px). destruct (hm_get b x) eqn:E; [now rewrite <- (H x Px)|exact I].
  - destruct (hm_get b x); [reflexivity|exact IH].
Qed.
Lemma same_here : forall s t x, same_state s t -> P x -> hm_get (env_bindings (env s)) x = hm_get (env_bindings (env t)) x.
Proof. intros s t x [H _] Px. unfold frames in H. inv H; [now auto|reflexivity]. Qed.
Lemma same_store : forall s t x v, same_state s t -> P x ->
  same_state (mk_state (mk_env (hm_set (env_bindings (env s)) x v) (env_next (env s))) (out s)) (mk_state (mk_env (hm_set (env_bindings (env t)) x v) (env_next (env t))) (out t)).
Proof.
  intros s t x v [H O] Px. split; [|exact O]. unfold frames in *. cbn. inv H.
  - apply sf_base. intros y Py. rewrite !hm_get_set. destruct (list_eq_dec N.eq_dec y x); [reflexivity|auto].
  - now apply sf_frame.
Qed.
Lemma same_push : forall s t, same_state s t -> same_state (push_frame s) (push_frame t).
Proof. intros s t [H O]. split; [|exact O]. now apply sf_frame. Qed.
Lemma same_out : forall s t s' t', same_state s t -> out s' = out t' -> same_state (mk_state (env s) (out s')) (mk_state (env t) (out t')).
Proof. intros s t s' t' [H O] O'. now split. Qed.

Variable checked : bool.
Variable fns fns' : functions.
Hypothesis agree : forall f, Q f -> hm_get fns f = hm_get fns' f.
Hypothesis bodies : forall f ps body, Q f -> hm_get fns f = Some (ps, body) -> names P Q body.
Lemma same_args : forall go go', (forall e s t, names P Q e -> same_state s t -> same_result (go e s) (go' e t)) ->
  forall es s t, Forall (names P Q) es -> same_state s t -> same_result (eval_args go es s) (eval_args go' es t).
Proof.
  intros go go' G es. induction es as [|e es IH]; intros s t F H; [now split|]. inv F. cbn [eval_args].
  apply same_bind; [now apply G|]. intros v s1 t1 H1. apply same_bind; [now apply IH|]. intros vs s2 t2 H2'. now split.
Qed.
Lemma same_block : forall go go', (forall e s t, names P Q e -> same_state s t -> same_result (go e s) (go' e t)) ->
  forall es w s t, Forall (names P Q) es -> same_state s t -> same_result (eval_block go es w s) (eval_block go' es w t).
Proof.
  intros go go' G es. induction es as [|e es IH]; intros w s t F H; [now apply same_opt|]. inv F. cbn [eval_block].
  apply same_bind; [now apply G|]. intros v s1 t1 H1. now apply IH.
Qed.
Lemma same_interpret : forall fuel e s t, names P Q e -> same_state s t ->
  same_result (interpret checked fns fuel e s) (interpret checked fns' fuel e t).
Proof.
  induction fuel as [|fuel IH]; intros e s t Hn Hs; [exact I|].
  pose proof Hs as [HF HO]. destruct Hn; cbn [interpret]; try (now split); try exact HO.
  - apply same_bind; [now apply IH|]. intros a s1 t1 H1. apply same_bind; [now apply IH|]. intros b s2 t2 H2. now apply same_opt.
  - pose proof (same_find HF H) as K. unfold find_binding. fold (frames s) (frames t).
    destruct (find_chain (frames s) x), (find_chain (frames t) x); try contradiction; [rewrite K; now apply same_opt|exact HO].
  - rewrite <- (agree H). destruct (hm_get fns f) as [[ps body]|] eqn:E; [|exact HO].
    apply same_bind; [now apply same_args|]. intros vs s1 t1 H1. apply same_bind.
    + unfold bind_params. destruct (length vs <? length ps); [apply H1|]. split; [reflexivity|now apply same_push].
    + intros _ s2 t2 H2. apply same_bind; [apply IH; [now apply (bodies H E)|exact H2]|]. intros v s3 t3 H3. split; [reflexivity|]. apply same_out; [exact H1|apply H3].
  - rewrite <- (agree H). destruct (hm_get fns f) as [[ps body]|] eqn:E; [|exact HO].
    apply same_bind; [now apply same_args|]. intros vs s1 t1 H1.
    apply same_bind; [apply IH; [now apply (bodies H E)|now apply same_push]|]. intros v s3 t3 H3. split; [reflexivity|]. apply same_out; [exact H1|apply H3].
  - apply same_bind; [now apply IH|]. intros v s1 t1 H1. split; [reflexivity|]. destruct H1 as [F1 O1]. split; [exact F1|]. cbn. now rewrite O1.
  - apply same_bind; [now apply IH|]. intros v s1 t1 H1. apply same_bind; [now apply same_opt|]. intros [|] s2 t2 H2; [|now split].
    apply same_bind; [now apply IH|]. intros w s3 t3 H3. apply IH; [now constructor|exact H3].
  - apply same_bind; [now apply IH|]. intros v s1 t1 H1. apply same_bind; [now apply same_opt|]. intros [|] s2 t2 H2; [now apply IH|now split].
  - apply same_bind; [now apply IH|]. intros v s1 t1 H1. apply same_bind; [now apply same_opt|]. intros [|] s2 t2 H2; now apply IH.
  - now apply same_block.
  - pose proof (same_find HF H) as K. unfold find_binding. fold (frames s) (frames t).
    apply same_bind; [now apply IH|]. intros v s1 t1 H1. unfold assign. rewrite <- (same_here H1 H).
    destruct (find_chain (frames s) x), (find_chain (frames t) x); try contradiction; [|split; [reflexivity|now apply same_store]].
    destruct (hm_get (env_bindings (env s1)) x); [split; [reflexivity|now apply same_store]|apply H1].
  - now apply IH.
Qed.
End Same.

(** ** Programs *)
(** The interpreters a caller can have: new ones, used ones, and reset ones. *)
Inductive reached (checked : bool) : interp -> Prop :=
| r_new : reached checked interp_new
| r_run : forall fuel i e v i' s, reached checked i -> call_main_on checked fuel i e = Ret (v, i') s -> reached checked i'
| r_reset : forall i, reached checked i -> reached checked (interp_reset i).
Definition defines (defs : list expr) (f : name) : Prop := exists ps b, In (EFun f ps b) defs.
(** [f] is the function the last definition of this name gives. *)
Definition last_def (defs : list expr) (f : name) (d : list name * expr) : Prop :=
  exists l1 l2, defs = l1 ++ EFun f (fst d) (snd d) :: l2 /\ ~ defines l2 f.
(** The program assigns [x] outside of functions, or in the body [main]. *)
Definition assigned_in (defs : list expr) (main : expr) (x : name) : Prop := (exists y e, In (EGlobal y e) defs /\ assigns x e) \/ assigns x main.
(** The names of a definition; the values of global variables call no functions. *)
Definition top_names (P Q : name -> Prop) (d : expr) : Prop :=
  match d with EGlobal _ e => names P (fun _ => False) e | EFun _ _ b => names P Q b | _ => True end.

Definition def1 (m : functions) (d : expr) : functions := match d with EFun f ps b => hm_set m f (ps, b) | _ => m end.
Lemma load_kept : forall checked fuel defs fns s g s', load checked fuel fns defs s = Ret g s' ->
  g = fold_left def1 defs fns /\ kept (fun x => exists y e, In (EGlobal y e) defs /\ assigns x e) s s'.
Proof.
  intros checked fuel defs. induction defs as [|d defs IH]; intros fns s g s' H; cbn [load] in H.
  - inv H. split; [reflexivity|now apply kept_refl].
  - destruct d; try discriminate.
    + step H. destruct (IH _ _ _ _ H) as [-> K]. split; [reflexivity|]. eapply kept_trans; [apply (interpret_kept _ _ _ _ _ E)|exact K| |]; cbn.
      * intros y A. exists x, d. auto.
      * intros y (z & e & I' & A). exists z, e. auto.
    + destruct (IH _ _ _ _ H) as [-> K]. split; [reflexivity|]. eapply kept_weak; [exact K|]. intros y (z & e & I' & A). exists z, e. split; [now right|exact A].
Qed.
Lemma fold_last : forall defs m f, (exists d, last_def defs f d /\ hm_get (fold_left def1 defs m) f = Some d) \/ (~ defines defs f /\ hm_get (fold_left def1 defs m) f = hm_get m f).
Proof.
  induction defs as [|d defs IH]; intros m f; [right; split; [intros (ps & b & [])|reflexivity]|]. cbn [fold_left].
  destruct (IH (def1 m d) f) as [(e & (l1 & l2 & -> & N) & G)|[N G]].
  - left. exists e. split; [|exact G]. exists (d :: l1), l2. now split.
  - rewrite G. destruct d as [t|z|b|es|o l r|x|h args|h args|x|e|e|e|c b|c t e|es|x e|e|x e|h ps b|es];
      try (right; split; [|reflexivity]; intros (ps' & b' & [K|K]); [discriminate|apply N; now exists ps', b']).
    cbn [def1]. rewrite hm_get_set. destruct (list_eq_dec N.eq_dec f h) as [->|Hf].
    + left. exists (ps, b). split; [|reflexivity]. exists [], defs. now split.
    + right. split; [|reflexivity]. intros (ps' & b' & [K|K]); [inv K; now destruct Hf|apply N; now exists ps', b'].
Qed.
Lemma last_unique : forall defs f d d', last_def defs f d -> last_def defs f d' -> d = d'.
Proof.
  induction defs as [|a defs IH]; intros f d d' (l1 & l2 & E & N) (l1' & l2' & E' & N'); [now destruct l1|].
  destruct l1 as [|b l1], l1' as [|b' l1']; cbn in E, E'.
  - inv E. inv E'. destruct d, d'; cbn in *. congruence.
  - injection E as Ea El. injection E' as _ E'. subst l2. destruct N. exists (fst d'), (snd d'). rewrite E'. apply in_or_app. right. now left.
  - injection E' as Ea El. injection E as _ E. subst l2'. destruct N'. exists (fst d), (snd d). rewrite E. apply in_or_app. right. now left.
  - injection E as _ E. injection E' as _ E'. apply (IH f); [now exists l1, l2|now exists l1', l2'].
Qed.
Lemma last_defines : forall defs f d, last_def defs f d -> In (EFun f (fst d) (snd d)) defs.
Proof. intros defs f d (l1 & l2 & -> & _). apply in_or_app. right. now left. Qed.

(** C121: what a run leaves behind.  A variable that is assigned neither in the value of a global variable nor in the body of the main
    function (assignments in called functions do not count) is what it was; the functions are those defined last under their name,
    by this program or before. *)
Theorem C121_left : forall checked fuel i defs v i' s, call_main_on checked fuel i (EProgram defs) = Ret (v, i') s ->
  exists ps main, hm_get (i_fns i') main_name = Some (ps, main) /\ (forall x, ~ assigned_in defs main x -> get_value i' x = get_value i x) /\
    (forall f, ~ defines defs f -> hm_get (i_fns i') f = hm_get (i_fns i) f) /\ (forall f d, last_def defs f d -> hm_get (i_fns i') f = Some d).
Proof.
  intros checked fuel i defs v i' s H. unfold call_main_on in H. step H. destruct (load_kept _ _ _ _ _ E) as [-> K].
  destruct (hm_get (fold_left def1 defs (i_fns i)) main_name) as [[ps main]|] eqn:G; [|discriminate]. step H. inv H.
  exists ps, main. cbn [i_fns]. split; [exact G|]. split; [|split].
  - intros x N. destruct (interpret_kept _ _ _ _ _ E0) as [_ K2]. unfold get_value. cbn [i_vars]. rewrite K2 by (intros A; apply N; now right).
    destruct K as [_ K]. rewrite K; [reflexivity|]. intros A. apply N. now left.
  - intros f N. destruct (fold_last defs (i_fns i) f) as [(d & L & _)|[_ F]]; [|exact F]. destruct N. exists (fst d), (snd d). now apply last_defines.
  - intros f d L. destruct (fold_last defs (i_fns i) f) as [(d' & L' & F)|[N _]]; [rewrite F; f_equal; now apply last_unique with (defs := defs) (f := f)|].
    destruct N. exists (fst d), (snd d). now apply last_defines.
Qed.
Lemma call_main_on_next : forall checked fuel i e v i' s, call_main_on checked fuel i e = Ret (v, i') s -> env_next (i_vars i') = env_next (i_vars i).
Proof.
  intros checked fuel i e v i' s H. destruct e; try discriminate. unfold call_main_on in H. step H. destruct (load_kept _ _ _ _ _ E) as [_ [K _]].
  destruct (hm_get a main_name) as [[ps main]|]; [|discriminate]. step H. inv H. destruct (interpret_kept _ _ _ _ _ E0) as [K2 _]. cbn in *. congruence.
Qed.
Lemma reached_next : forall checked i, reached checked i -> env_next (i_vars i) = [].
Proof. intros checked i H. induction H; try reflexivity. now rewrite (call_main_on_next _ _ _ _ H0). Qed.

Lemma same_load : forall (P Q : name -> Prop) checked fuel defs fns fns' s t, Forall (top_names P Q) defs -> same_state P s t ->
  match load checked fuel fns defs s, load checked fuel fns' defs t with
  | Ret g s', Ret g' t' => same_state P s' t' | Pan s', Pan t' => out s' = out t' | Fuel, Fuel => True | _, _ => False
  end.
Proof.
  intros P Q checked fuel defs. induction defs as [|d defs IH]; intros fns fns' s t F H; [exact H|]. inv F. cbn [load].
  destruct d; try apply H.
  - cbn [top_names] in H2. assert (B : forall f ps body, False -> hm_get fns f = Some (ps, body) -> names P (fun _ => False) body) by tauto.
    pose proof (@same_interpret P (fun _ => False) checked fns fns' (fun f (F : False) => match F with end) B fuel _ s t H2 H) as K.
    destruct (interpret checked fns fuel d s), (interpret checked fns' fuel d t); try contradiction; cbn [bind]; [|exact K|exact I].
    apply IH; [exact H3|apply K].
  - apply IH; assumption.
Qed.

(** C121: a program behaves on a used interpreter as on a new one - same value, same output, same panics - if none of the variables it
    names is bound there and every function it calls is one of its own or unknown there; its variables then have the same values
    and all others keep theirs.  The values of its global variables call no functions. *)
Theorem C121_used : forall checked fuel i defs (P Q : name -> Prop), reached checked i -> Forall (top_names P Q) defs -> Q main_name ->
  (forall x, P x -> get_value i x = None) -> (forall f, Q f -> defines defs f \/ hm_get (i_fns i) f = None) ->
  match call_main_on checked fuel interp_new (EProgram defs), call_main_on checked fuel i (EProgram defs) with
  | Ret (v, j) s, Ret (v', j') s' => v' = v /\ out s' = out s /\ (forall x, P x -> get_value j' x = get_value j x) /\ (forall x, ~ P x -> get_value j' x = get_value i x)
  | Pan s, Pan s' => out s' = out s
  | Fuel, Fuel => True
  | _, _ => False
  end.
Proof.
  intros checked fuel i defs P Q R F Qm HP HQ.
  assert (S0 : same_state P (mk_state (i_vars interp_new) []) (mk_state (i_vars i) [])).
  { split; [|reflexivity]. unfold frames. cbn. rewrite (reached_next R). apply sf_base. intros x Px. symmetry. now apply HP. }
  assert (A : forall f, Q f -> hm_get (fold_left def1 defs []) f = hm_get (fold_left def1 defs (i_fns i)) f).
  { intros f Qf. destruct (fold_last defs [] f) as [(d & L & ->)|[N ->]], (fold_last defs (i_fns i) f) as [(d' & L' & ->)|[N' ->]].
    - f_equal. now apply last_unique with (defs := defs) (f := f).
    - destruct N'. exists (fst d), (snd d). now apply last_defines.
    - destruct N. exists (fst d'), (snd d'). now apply last_defines.
    - destruct (HQ f Qf); [contradiction|]. now symmetry. }
  assert (B : forall f ps body, Q f -> hm_get (fold_left def1 defs []) f = Some (ps, body) -> names P Q body).
  { intros f ps body _ G. destruct (fold_last defs [] f) as [(d & L & G2)|[_ G2]]; rewrite G2 in G; [|discriminate]. inv G.
    apply last_defines in L. rewrite Forall_forall in F. apply (F _ L). }
  assert (KL : forall v' j' s', call_main_on checked fuel i (EProgram defs) = Ret (v', j') s' -> forall x, ~ P x -> get_value j' x = get_value i x).
  { intros v' j' s' H x N. destruct (C121_left _ _ _ _ H) as (ps & main & G & K & K2 & K3). apply K. intros [(y & e & I' & As)|As].
    - rewrite Forall_forall in F. apply N. apply (assigns_names As (F _ I')).
    - apply N. refine (assigns_names As (_ : names P Q main)). destruct (HQ _ Qm) as [D|D].
      + destruct (fold_last defs [] main_name) as [(d & L & G2)|[N2 _]]; [|contradiction]. rewrite (K3 _ _ L) in G. apply (B main_name ps); [exact Qm|]. congruence.
      + destruct (fold_last defs [] main_name) as [(d & L & G2)|[N2 _]]; [rewrite (K3 _ _ L) in G; apply (B main_name ps); [exact Qm|]; congruence|].
        rewrite (K2 _ N2) in G. congruence. }
  pose proof (@same_load P Q checked fuel defs [] (i_fns i) _ _ F S0) as L. unfold call_main_on in *. cbn [i_fns interp_new] in *.
  destruct (load checked fuel [] defs (mk_state (i_vars interp_new) [])) as [g s|s|] eqn:E, (load checked fuel (i_fns i) defs (mk_state (i_vars i) [])) as [g' s'|s'|] eqn:E';
    try contradiction; cbn [bind] in *; [|now symmetry|exact I].
  destruct (load_kept _ _ _ _ _ E) as [-> _]. destruct (load_kept _ _ _ _ _ E') as [-> _]. rewrite <- (A _ Qm) in *.
  destruct (hm_get (fold_left def1 defs []) main_name) as [[ps main]|] eqn:G; [|symmetry; apply L].
  pose proof (@same_interpret P Q checked _ _ A B fuel main s s' (B _ _ _ Qm G) L) as K.
  destruct (interpret checked (fold_left def1 defs []) fuel main s) as [v t|t|], (interpret checked (fold_left def1 defs (i_fns i)) fuel main s') as [v' t'|t'|];
    try contradiction; cbn [bind] in *; [|now symmetry|exact I].
  destruct K as [-> K]. split; [reflexivity|]. split; [symmetry; apply K|]. split.
  - intros x Px. symmetry. now apply (same_here x K).
  - intros x N. now apply (KL _ _ _ eq_refl).
Qed.
Print Assumptions C121_left.
Print Assumptions C121_used.

(** A new interpreter is the one the other claims are about. *)
Lemma call_main_new : forall checked fuel e, call_main checked fuel e = bind (call_main_on checked fuel interp_new e) (fun r s => Ret (fst r) s).
Proof.
  intros checked fuel e. destruct e as [t|z|b|es|o l r|x|f args|f args|x|e|e|e|c b|c t e|es|x e|e|x e|f ps b|es]; try reflexivity.
  unfold call_main, call_main_on. cbn [i_fns i_vars interp_new]. fold start.
  destruct (load checked fuel [] es start) as [g s|s|]; cbn [bind]; try reflexivity.
  destruct (hm_get g main_name) as [[ps main]|]; [|reflexivity]. now destruct (interpret checked g fuel main s).
Qed.

(** C121: a program the main function of which assigns no variable by itself, and that has no global variables with assignments, can
    be run again with the same outcome. *)
Theorem C121_again : forall checked fuel defs (P Q : name -> Prop) v i s, call_main_on checked fuel interp_new (EProgram defs) = Ret (v, i) s ->
  Forall (top_names P Q) defs -> Q main_name -> (forall ps main x, hm_get (i_fns i) main_name = Some (ps, main) -> ~ assigned_in defs main x) ->
  exists i' s', call_main_on checked fuel i (EProgram defs) = Ret (v, i') s' /\ out s' = out s /\ forall x, get_value i' x = None.
Proof.
  intros checked fuel defs P Q v i s H F Qm N. assert (R : reached checked i) by (eapply r_run; [apply r_new|exact H]).
  destruct (C121_left _ _ _ _ H) as (ps & main & G & K & K2 & K3).
  assert (Z : forall x, get_value i x = None) by (intros x; rewrite (K x (N _ _ x G)); reflexivity).
  pose proof (@C121_used checked fuel i defs (fun x => P x) Q R F Qm (fun x _ => Z x)) as U. rewrite H in U.
  destruct (call_main_on checked fuel i (EProgram defs)) as [[v' i'] s'|s'|] eqn:E.
  - assert (HQ : forall f, Q f -> defines defs f \/ hm_get (i_fns i) f = None).
    { intros f _. destruct (fold_last defs [] f) as [(d & L & _)|[D _]]; [left; exists (fst d), (snd d); now apply last_defines|right; now rewrite (K2 _ D)]. }
    destruct (U HQ) as (-> & O & _). exists i', s'. split; [reflexivity|]. split; [exact O|]. intros x.
    destruct (C121_left _ _ _ _ E) as (ps' & main' & G' & K' & _ & K3'). rewrite (K' x); [apply Z|].
    destruct (fold_last defs [] main_name) as [(d & L & _)|[D _]].
    + rewrite (K3' _ _ L) in G'. rewrite (K3 _ _ L) in G. apply (N ps). rewrite (K3 _ _ L). congruence.
    + rewrite (K2 _ D) in G. discriminate.
  - assert (HQ : forall f, Q f -> defines defs f \/ hm_get (i_fns i) f = None).
    { intros f _. destruct (fold_last defs [] f) as [(d & L & _)|[D _]]; [left; exists (fst d), (snd d); now apply last_defines|right; now rewrite (K2 _ D)]. }
    destruct (U HQ).
  - assert (HQ : forall f, Q f -> defines defs f \/ hm_get (i_fns i) f = None).
    { intros f _. destruct (fold_last defs [] f) as [(d & L & _)|[D _]]; [left; exists (fst d), (snd d); now apply last_defines|right; now rewrite (K2 _ D)]. }
    destruct (U HQ).
Qed.
(** C121 as stated is false: a program that runs on a new interpreter panics when it is run again on the same interpreter, as the
    function then finds the variable the main function has left. *)
Theorem C121_again_refuted : exists text p v i s s', parse (program is_ascii_digit) text = Success p (length text) /\
  call_main_on true 20 interp_new p = Ret (v, i) s /\ call_main_on true 20 i p = Pan s'.
Proof.
  set (f := EBlock [EAssign (bs "x") (EInt 1)]). set (m := EBlock [ECall (bs "f") []; EAssign (bs "x") (EInt 2)]).
  set (e := mk_env [(bs "x", VInt 2)] []).
  exists (bs "fn f() { x = 1; } fn main() { f(); x = 2; }"), (EProgram [EFun (bs "f") [] f; EFun main_name [] m]), (VInt 2).
  exists (mk_interp e [(bs "f", ([], f)); (main_name, ([], m))]), (mk_state e []), (mk_state (mk_env [] [[(bs "x", VInt 2)]]) []).
  split; [vm_compute; reflexivity|]. split; vm_compute; reflexivity.
Qed.
(** fn f() { y = 1; println(y); }  fn main() { f(); f(); 5; } assigns no variable in main; it runs twice with the same outcome. *)
Definition again_defs : list expr :=
  [EFun (bs "f") [] (EBlock [EAssign (bs "y") (EInt 1); EPrintln (ESymbol (bs "y"))]); EFun main_name [] (EBlock [ECall (bs "f") []; ECall (bs "f") []; EInt 5])].
Definition again_fns : functions := [(bs "f", ([], EBlock [EAssign (bs "y") (EInt 1); EPrintln (ESymbol (bs "y"))])); (main_name, ([], EBlock [ECall (bs "f") []; ECall (bs "f") []; EInt 5]))].
(** fn main() { x = 2; } *)
Definition before_main : expr := EBlock [EAssign (bs "x") (EInt 2)].
Definition before_defs : list expr := [EFun main_name [] before_main].
Definition before_interp : interp := mk_interp (mk_env [(bs "x", VInt 2)] []) [(main_name, ([], before_main))].
Example C121_case : let again := mk_interp (mk_env [] []) again_fns in
  call_main_on true 20 interp_new (EProgram again_defs) = Ret (VInt 5, again) (mk_state (mk_env [] []) [VInt 1; VInt 1]) /\
  (forall ps main x, hm_get (i_fns again) main_name = Some (ps, main) -> ~ assigned_in again_defs main x) /\
  Forall (top_names (fun x => x = bs "y") (fun f => f = bs "f" \/ f = main_name)) again_defs /\
  reached true before_interp /\ get_value before_interp (bs "x") = Some (VInt 2) /\ get_value (interp_reset before_interp) (bs "x") = None /\
  (forall x, x = bs "y" -> get_value before_interp x = None) /\
  (forall f, f = bs "f" \/ f = main_name -> defines again_defs f \/ hm_get (i_fns before_interp) f = None) /\
  call_main_on true 20 before_interp (EProgram again_defs) = Ret (VInt 5, mk_interp (mk_env [(bs "x", VInt 2)] []) ((main_name, ([], EBlock [ECall (bs "f") []; ECall (bs "f") []; EInt 5])) :: firstn 1 again_fns))
    (mk_state (mk_env [(bs "x", VInt 2)] []) [VInt 1; VInt 1]).
Proof.
  split; [vm_compute; reflexivity|]. split; [|split; [|split; [|split; [reflexivity|split; [reflexivity|split; [|split]]]]]].
  - intros ps main x G. vm_compute in G. inv G. intros [(y & e & [K|[K|[]]] & _)|A]; try discriminate.
    inv A. cbn in H0. repeat (destruct H0 as [<-|H0]; [inv H1; contradiction|]). contradiction.
  - repeat apply Forall_cons; [| |apply Forall_nil]; cbn [top_names].
    + constructor. repeat apply Forall_cons; [| |apply Forall_nil]; repeat constructor.
    + constructor. repeat apply Forall_cons; [| | |apply Forall_nil]; constructor; auto.
  - apply (@r_run true 20 interp_new (EProgram before_defs) (VInt 2) before_interp (mk_state (i_vars before_interp) [])); [apply r_new|vm_compute; reflexivity].
  - intros x ->. reflexivity.
  - intros f [->| ->]; left; do 2 eexists; [left|right; left]; reflexivity.
  - vm_compute. reflexivity.
Qed.
Print Assumptions C121_again.
Print Assumptions C121_again_refuted.
