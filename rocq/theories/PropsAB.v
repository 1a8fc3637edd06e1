(** C116: typed toys programs. *)
From Verif Require Import PropsU Base Core Closure Text Toys ToysSpec ToysFacts ToysTypes.
From Coq Require Import ZArith.
Set Implicit Arguments.
Local Open Scope string_scope.
Local Open Scope nat_scope.
Local Open Scope list_scope.

(** The state fits the types. *)
Record fit (D : ctx) (K L : name -> Prop) (g : ctx) (s : state) : Prop := {
  ft_local : forall x v, hm_get (env_bindings (env s)) x = Some v -> L x;
  ft_typed : forall x T, hm_get g x = Some T -> exists v, hm_get (env_bindings (env s)) x = Some v /\ has_ty v T;
  ft_outer : forall x T, hm_get D x = Some T -> exists v, lookup (env_next (env s)) x v /\ has_ty v T;
  ft_unbound : forall x v, K x -> ~ lookup (env_next (env s)) x v }.

Lemma fit_sub : forall D K L g g' s, fit D K L g s -> sub g' g -> fit D K L g' s.
Proof. intros D K L g g' s [H1 H2 H3 H4] Hs. constructor; auto. Qed.
Lemma lookup_fun : forall bs x v w, lookup bs x v -> lookup bs x w -> v = w.
Proof. intros bs x v w H. induction H; intros K; inv K; try congruence; auto. Qed.
Lemma fit_sees : forall D K L g s x T, fit D K L g s -> sees D L g x T -> exists v, lookup (chain s) x v /\ has_ty v T.
Proof.
  intros D K L g s x T [H1 H2 H3 H4] [E|[Hn E]].
  - destruct (H2 _ _ E) as (v & G & Ht). exists v. split; [now constructor|exact Ht].
  - destruct (H3 _ _ E) as (v & G & Ht). exists v. split; [|exact Ht]. unfold chain. destruct (hm_get (env_bindings (env s)) x) as [w|] eqn:Ex; [|now apply lk_next].
    now apply H1 in Ex.
Qed.
Lemma fit_store : forall D K L g s x v T, fit D K L g s -> L x -> has_ty v T -> fit D K L (hm_set g x T) (store s x v).
Proof.
  intros D K L g s x v T [H1 H2 H3 H4] Hx Ht. constructor; cbn [store env env_bindings env_next]; auto.
  - intros y w. rewrite hm_get_set. destruct (list_eq_dec N.eq_dec y x) as [->|]; [auto|apply H1].
  - intros y U. rewrite !hm_get_set. destruct (list_eq_dec N.eq_dec y x) as [->|]; [intros E; inv E; eauto|apply H2].
Qed.
Lemma fit_call : forall D K L g s sg (L' : name -> Prop), fit D K L g s -> callable D K L sg g -> (forall x, L' x -> s_own sg x) -> fit (s_sees sg) (s_own sg) L' [] (fresh s).
Proof.
  intros D K L g s sg L' F [C1 C2] HL. constructor; cbn [fresh env env_bindings env_next].
  - discriminate.
  - discriminate.
  - intros x T E. apply (fit_sees F). now apply C1.
  - intros x v Hx Hl. destruct (C2 _ Hx) as [Kx Lx]. destruct F as [H1 H2 H3 H4]. unfold chain in Hl. inv Hl; [eauto|eapply H4; eauto].
Qed.
Lemma fit_out : forall D K L g s o, fit D K L g s -> fit D K L g (mk_state (env s) o).
Proof. intros D K L g s o [H1 H2 H3 H4]. constructor; auto. Qed.
Lemma arith_total : forall checked o x y, arith_op o -> (forall v, ~ bin_rel checked o (VInt x) (VInt y) v) -> arith_error checked o x y.
Proof.
  intros checked o x y Ho H.
  assert (W : forall e, (forall z, ~ arith_rel checked e z) -> checked = true /\ ~ i64 e).
  { intros e He. destruct (arith checked e) as [z|] eqn:E; [apply arith_iff in E; now apply He in E|]. unfold arith in E. destruct (in_i64 e) eqn:Ei; [discriminate|].
    destruct checked; [|discriminate]. split; [reflexivity|]. intros K. apply in_i64_iff in K. congruence. }
  assert (V : (o = ODiv \/ o = OMod) -> arith_error checked o x y).
  { intros Hd. destruct (Z.eq_dec y 0) as [->|Hy]; [now constructor|].
    destruct (Z.eq_dec x i64_min) as [->|Hx]; [destruct (Z.eq_dec y (-1)) as [->|Hy1]; [now constructor|]|]; exfalso; destruct Hd as [-> | ->];
      eapply H; constructor; (assumption || (intros []; congruence)). }
  destruct Ho; auto.
  - destruct (W (x + y)%Z); [|now constructor]. intros z Hz. eapply H. constructor. exact Hz.
  - destruct (W (x - y)%Z); [|now constructor]. intros z Hz. eapply H. constructor. exact Hz.
  - destruct (W (x * y)%Z); [|now constructor]. intros z Hz. eapply H. constructor. exact Hz.
Qed.

Lemma keeps : forall checked fns,
  (forall e s r s', ev checked fns e s r s' -> r <> None -> forall x, bound_here s x -> bound_here s' x) /\
  (forall es s r s', evs checked fns es s r s' -> r <> None -> forall x, bound_here s x -> bound_here s' x).
Proof.
  intros checked fns.
  assert (St : forall s x v y, bound_here s y -> bound_here (store s x v) y).
  { intros s x v y (w & H). unfold bound_here, store. cbn [env env_bindings]. rewrite hm_get_set. destruct (list_eq_dec N.eq_dec y x); eauto. }
  apply ev_ind2; intros; try congruence; auto; repeat match goal with H : Some _ <> None -> _ |- _ => specialize (H ltac:(discriminate)) end; auto.
  all: change (bound_here s1 x); auto.
Qed.
Lemma sound : forall checked fns sigs, well_typed sigs fns ->
  (forall e s r s', ev checked fns e s r s' -> forall D (K L : name -> Prop) g T g', (forall x, L x -> K x) -> ty sigs D K L g e T g' -> fit D K L g s ->
     match r with Some v => has_ty v T /\ fit D K L g' s' | None => fails checked fns e s end) /\
  (forall es s r s', evs checked fns es s r s' -> forall D (K L : name -> Prop) g g', (forall x, L x -> K x) -> tys sigs D K L g es g' -> fit D K L g s ->
     match r with Some vs => length vs = length es /\ fit D K L g' s' | None => fails_in checked fns es s end).
Proof.
  intros checked fns sigs W.
  Ltac ih := repeat match goal with
    | IH : forall D K L g T g', _ -> ty _ D K L g ?e T g' -> fit D K L g ?s -> _, HL : (forall x, ?L x -> ?K x), HT : ty _ ?D ?K ?L ?g ?e ?T ?g', HF : fit ?D ?K ?L ?g ?s |- _ =>
        specialize (IH _ _ _ _ _ _ HL HT HF); try (let A := fresh "A" in let B := fresh "B" in destruct IH as [A B])
    | IH : forall D K L g g', _ -> tys _ D K L g ?e g' -> fit D K L g ?s -> _, HL : (forall x, ?L x -> ?K x), HT : tys _ ?D ?K ?L ?g ?e ?g', HF : fit ?D ?K ?L ?g ?s |- _ =>
        specialize (IH _ _ _ _ _ HL HT HF); try (let A := fresh "A" in let B := fresh "B" in destruct IH as [A B])
    end.
  Ltac ity := match goal with H : ty _ _ _ _ _ _ _ _ |- _ => inv H | H : tys _ _ _ _ _ _ _ |- _ => inv H end.
  Ltac dr := match goal with r : option value |- _ => destruct r | _ => idtac end.
  apply ev_ind2; intros; dr; ity; ih; try congruence; try (now inv H);
    try (now eauto using has_ty, fails, fails_in, fit_sub); try (split; [now eauto using has_ty|now eauto using fit_sub, fit_out]).
  - match goal with F : fit _ _ _ _ _, S : sees _ _ _ _ _ |- _ => destruct (fit_sees F S) as (w & Hw & Ht) end. split; [|assumption].
    match goal with Hl : lookup (chain s) x v |- _ => now rewrite (lookup_fun Hl Hw) end.
  - match goal with F : fit _ _ _ _ _, S : sees _ _ _ _ _ |- _ => destruct (fit_sees F S) as (w & Hw & Ht) end. exfalso. match goal with N : ~ bound _ _ |- _ => apply N end. now exists w.
  - split; [|assumption]. match goal with Ho : arith_op _, B : bin_rel _ _ _ _ _ |- _ => inv Ho; inv B; try constructor; contradiction end.
  - split; [|assumption]. match goal with Ho : cmp_op _, B : bin_rel _ _ _ _ _ |- _ => inv Ho; inv B; constructor end.
  - split; [|assumption]. match goal with Ho : logic_op _, B : bin_rel _ _ _ _ _ |- _ => inv Ho; inv B; try contradiction; try constructor end; assumption.
  - repeat match goal with Ht : has_ty _ TInt |- _ => inv Ht end. eapply f_op; [eassumption|eassumption|]. now apply arith_total.
  - repeat match goal with Ht : has_ty _ TInt |- _ => inv Ht end. exfalso.
    match goal with N : forall v, ~ bin_rel _ _ (VInt ?x) (VInt ?y) _, Ho : cmp_op _ |- _ => inv Ho; eapply N; apply binop_iff; reflexivity end.
  - repeat match goal with Ht : has_ty _ TBool |- _ => inv Ht end. exfalso.
    match goal with N : forall v, ~ bin_rel _ _ (VBool ?x) (VBool ?y) _, Ho : logic_op _ |- _ => inv Ho; destruct x; eapply N; apply binop_iff; reflexivity end.
  - split; [assumption|]. now apply fit_store.
  - exfalso. match goal with Hb : bound _ _, N : ~ bound_here _ _, F : fit _ _ _ g s, Hx : L x, HL : forall x, L x -> K x |- _ =>
      destruct Hb as (w & Hw); apply N; unfold chain in Hw; inv Hw; [|exfalso; eapply (ft_unbound F (HL _ Hx)); eassumption] end.
    eapply (proj1 (keeps checked fns)) with (r := Some v); [eassumption|discriminate|]. now exists w.
  - split; [|now eauto using fit_sub]. match goal with Hj : _ \/ _ |- _ => destruct Hj as [->|[-> ->]]; [constructor|assumption] end.
  - split; [|now eauto using fit_sub]. match goal with Hj : _ \/ _ |- _ => destruct Hj as [->|[-> ->]]; [constructor|assumption] end.
  - exfalso. repeat match goal with Ht : has_ty _ TBool |- _ => inv Ht end. match goal with N : forall b0, VBool ?b <> VBool b0 |- _ => exact (N b eq_refl) end.
  - exfalso. repeat match goal with Ht : has_ty _ TBool |- _ => inv Ht end. match goal with N : forall b0, VBool ?b <> VBool b0 |- _ => exact (N b eq_refl) end.
  - match goal with IH : forall D K L g T g', _ -> ty _ D K L g (EWhile _ _) T g' -> _, HL : (forall x, L x -> K x) |- _ => eapply IH; [exact HL|eapply ty_while; eassumption|now eauto using fit_sub] end.
  - eapply f_again; [eassumption|eassumption|]. 
    match goal with IH : forall D K L g T g', _ -> ty _ D K L g (EWhile _ _) T g' -> _, HL : (forall x, L x -> K x) |- _ => eapply IH; [exact HL|eapply ty_while; eassumption|now eauto using fit_sub] end.
  - exfalso. repeat match goal with Ht : has_ty _ TBool |- _ => inv Ht end. match goal with N : forall b0, VBool ?b <> VBool b0 |- _ => exact (N b eq_refl) end.
  - match goal with Sg : sigs ?f = Some ?sg, F : fit ?D ?K ?L ?g s1, C : callable ?D ?K ?L ?sg ?g |- _ =>
      destruct (W _ _ Sg) as (ps' & body' & L' & g0 & G & Ar & HL' & Ht'); pose proof (fit_call L' F C HL') as F' end.
    rewrite e in G. inv G. ih. split; [assumption|now apply fit_out].
  - match goal with Sg : sigs ?f = Some ?sg, F : fit ?D ?K ?L ?g s1, C : callable ?D ?K ?L ?sg ?g |- _ =>
      destruct (W _ _ Sg) as (ps' & body' & L' & g0 & G & Ar & HL' & Ht'); pose proof (fit_call L' F C HL') as F' end.
    rewrite e in G. inv G. ih. eapply f_call; eassumption.
  - match goal with Sg : sigs ?f = Some ?sg, F : fit ?D ?K ?L ?g s1, C : callable ?D ?K ?L ?sg ?g |- _ =>
      destruct (W _ _ Sg) as (ps' & body' & L' & g0 & G & Ar & HL' & Ht'); pose proof (fit_call L' F C HL') as F' end.
    rewrite e in G. inv G. exfalso. lia.
  - exfalso. match goal with Sg : sigs _ = Some _ |- _ => destruct (W _ _ Sg) as (ps' & body' & L' & g0 & G & _) end. congruence.
  - match goal with Sg : sigs ?f = Some ?sg, F : fit ?D ?K ?L ?g s1, C : callable ?D ?K ?L ?sg ?g |- _ =>
      destruct (W _ _ Sg) as (ps' & body' & L' & g0 & G & Ar & HL' & Ht'); pose proof (fit_call L' F C HL') as F' end.
    rewrite e in G. inv G. ih. split; [assumption|now apply fit_out].
  - match goal with Sg : sigs ?f = Some ?sg, F : fit ?D ?K ?L ?g s1, C : callable ?D ?K ?L ?sg ?g |- _ =>
      destruct (W _ _ Sg) as (ps' & body' & L' & g0 & G & Ar & HL' & Ht'); pose proof (fit_call L' F C HL') as F' end.
    rewrite e in G. inv G. ih. eapply f_labelled; eassumption.
  - exfalso. match goal with Sg : sigs _ = Some _ |- _ => destruct (W _ _ Sg) as (ps' & body' & L' & g0 & G & _) end. congruence.
  - split; [cbn; congruence|assumption].
Qed.

(** ** C116 *)
(** A typed expression, run with typed functions in a state that fits, panics only in an operation of i64, and a value that it returns has its type. *)
Theorem C116_typed_expression : forall checked fns sigs D (K L : name -> Prop) g e T g' fuel s, well_typed sigs fns -> (forall x, L x -> K x) ->
  ty sigs D K L g e T g' -> fit D K L g s ->
  match interpret checked fns fuel e s with
  | Ret v s' => has_ty v T /\ fit D K L g' s'
  | Pan _ => fails checked fns e s
  | Fuel => True
  end.
Proof.
  intros checked fns sigs D K L g e T g' fuel s W HL Ht F. pose proof (interpret_sound checked fns fuel e s) as A.
  destruct (interpret checked fns fuel e s) as [v s'|s'|]; [| |exact I]; exact (proj1 (sound checked W) _ _ _ _ A _ _ _ _ _ _ HL Ht F).
Qed.
(** What [fails] says is true: there is a panic. *)
Scheme fails_mut := Induction for fails Sort Prop with fails_in_mut := Induction for fails_in Sort Prop.
Combined Scheme fails_ind2 from fails_mut, fails_in_mut.
Lemma arith_error_undefined : forall checked o x y v, arith_error checked o x y -> ~ bin_rel checked o (VInt x) (VInt y) v.
Proof.
  intros checked o x y v H B. apply binop_iff in B.
  assert (C : forall e, checked = true -> ~ i64 e -> arith checked e = None).
  { intros e -> He. unfold arith. destruct (in_i64 e) eqn:E; [apply in_i64_iff in E; contradiction|reflexivity]. }
  inv H; [destruct H0; subst; cbn in B; discriminate|destruct H0; subst; cbn in B; discriminate| | |]; cbn in B; rewrite C in B by auto; discriminate.
Qed.
Theorem C116_fails_panics : forall checked fns e s, fails checked fns e s -> exists fuel s', interpret checked fns fuel e s = Pan s'.
Proof.
  intros checked fns e s H. assert (K : exists s', ev checked fns e s None s').
  { revert e s H. refine (proj1 (fails_ind2 (fun e s _ => exists s', ev checked fns e s None s') (fun es s _ => exists s', evs checked fns es s None s')
      _ _ _ _ _ _ _ _ _ _ _ _ _ _ _ _ _ _ _ _)); intros; repeat match goal with H : exists _, _ |- _ => destruct H end; try (eexists; econstructor; eassumption).
    - eexists. eapply ev_bin_p; [eassumption|eassumption|]. intros v. now apply arith_error_undefined.
    - destruct es; eexists; [apply ev_block1|apply ev_block_p; [discriminate|]]; eassumption.
    - destruct es as [|e' es]; [match goal with F : fails _ _ (EBlock []) _ |- _ => inv F end|]. eexists. eapply ev_block; [discriminate|eassumption|eassumption].
    - destruct (hm_get fns f) as [[ps body]|] eqn:Ef; eexists; [eapply ev_call_p|eapply ev_call_u]; eassumption.
    - destruct (Nat.le_gt_cases (length ps) (length vs)); eexists; [eapply ev_call_pb|eapply ev_call_few]; eassumption.
    - destruct (hm_get fns f) as [[ps body]|] eqn:Ef; eexists; [eapply ev_lab_p|eapply ev_lab_u]; eassumption. }
  destruct K as (s' & K). apply interpret_ev in K. destruct K as (fuel & K). exists fuel, s'. exact K.
Qed.
(** Where an operation occurs. *)
Inductive uses (o : op) : expr -> Prop :=
| us_here : forall l r, uses o (EBin o l r)
| us_left : forall p l r, uses o l -> uses o (EBin p l r)
| us_right : forall p l r, uses o r -> uses o (EBin p l r)
| us_paren : forall e, uses o e -> uses o (EParen e)
| us_assign : forall x e, uses o e -> uses o (EAssign x e)
| us_println : forall e, uses o e -> uses o (EPrintln e)
| us_block : forall e es, In e es -> uses o e -> uses o (EBlock es)
| us_if : forall c t e, uses o c -> uses o (EIf c t e)
| us_then : forall c t e, uses o t -> uses o (EIf c t e)
| us_else : forall c t e, uses o e -> uses o (EIf c t (Some e))
| us_while : forall c b, uses o c -> uses o (EWhile c b)
| us_body : forall c b, uses o b -> uses o (EWhile c b)
| us_call : forall f e args, In e args -> uses o e -> uses o (ECall f args)
| us_labelled : forall f e args, In e (map snd args) -> uses o e -> uses o (ELabelled f args).
(** C116: without overflow checks, a typed program without division and remainder never panics. *)
Theorem C116_never_panics : forall fns sigs D (K L : name -> Prop) g e T g' fuel s, well_typed sigs fns -> (forall x, L x -> K x) ->
  ty sigs D K L g e T g' -> fit D K L g s ->
  (forall o, o = ODiv \/ o = OMod -> ~ uses o e /\ forall f ps body, hm_get fns f = Some (ps, body) -> ~ uses o body) ->
  forall s', interpret false fns fuel e s <> Pan s'.
Proof.
  intros fns sigs D K L g e T g' fuel s W HL Ht F U s' E. pose proof (C116_typed_expression false fuel W HL Ht F) as P. rewrite E in P. clear E Ht F.
  assert (A : (exists o, (o = ODiv \/ o = OMod) /\ (uses o e \/ exists f ps body, hm_get fns f = Some (ps, body) /\ uses o body))).
  { clear U. revert e s P. refine (proj1 (fails_ind2 (checked := false) (fns := fns)
      (fun e s _ => exists o, (o = ODiv \/ o = OMod) /\ (uses o e \/ exists f ps body, hm_get fns f = Some (ps, body) /\ uses o body))
      (fun es s _ => exists o, (o = ODiv \/ o = OMod) /\ ((exists e, In e es /\ uses o e) \/ exists f ps body, hm_get fns f = Some (ps, body) /\ uses o body))
      _ _ _ _ _ _ _ _ _ _ _ _ _ _ _ _ _ _ _ _)); intros;
      repeat match goal with H : exists o, (o = ODiv \/ o = OMod) /\ _ |- _ => let q := fresh "q" in let Q := fresh "Q" in let U := fresh "U" in destruct H as (q & Q & U); exists q; split; [exact Q|]; clear Q end.
    1: inv a; try discriminate; exists o; (split; [assumption|left; apply us_here]).
    all: match goal with U : _ \/ _ |- _ => destruct U as [U|U]; [|right; exact U] end.
    all: try (destruct U as (e0 & Hin & U)).
    all: try (left; econstructor; eassumption). all: try (left; econstructor; [now left|eassumption]). all: try (right; now eauto).
    - inv U. left. econstructor; [right|]; eassumption.
    - left. exact U.
    - left. exists e. split; [now left|exact U].
    - destruct U as (e' & Hin & U). left. exists e'. split; [now right|exact U]. }
  destruct A as (o & Ho & [A|(f & ps & body & G & A)]); destruct (U o Ho) as [U1 U2]; [now apply U1|now apply (U2 _ _ _ G)].
Qed.

(** The functions of a program. *)
Definition functions_of (defs : list expr) : functions := fold_left (fun m d => match d with EFun f ps b => hm_set m f (ps, b) | _ => m end) defs [].
Definition is_fun (d : expr) : Prop := match d with EFun _ _ _ => True | _ => False end.
Lemma load_functions : forall checked fuel defs s fns, Forall is_fun defs ->
  Toys.load checked fuel fns defs s = Ret (fold_left (fun m d => match d with EFun f ps b => hm_set m f (ps, b) | _ => m end) defs fns) s.
Proof.
  intros checked fuel defs s. induction defs as [|d defs IH]; intros fns H; [reflexivity|]. inv H. destruct d; try contradiction. cbn [Toys.load fold_left]. now apply IH.
Qed.
(** C116: the same for a program of function definitions, the functions of which have signatures; the main function sees no variables. *)
Theorem C116_typed_program : forall checked fuel defs sigs sg, Forall is_fun defs -> well_typed sigs (functions_of defs) -> sigs main_name = Some sg -> s_sees sg = [] ->
  match call_main checked fuel (EProgram defs) with
  | Ret v _ => has_ty v (s_result sg)
  | Pan _ => exists ps body, hm_get (functions_of defs) main_name = Some (ps, body) /\ fails checked (functions_of defs) body start
  | Fuel => True
  end.
Proof.
  intros checked fuel defs sigs sg Hd W Hm Hs. assert (LF : Toys.load checked fuel [] defs start = Ret (functions_of defs) start) by now apply load_functions.
  unfold call_main. rewrite LF. cbn [bind].
  destruct (W _ _ Hm) as (ps & body & L & g & G & _ & HL & Ht). rewrite G.
  assert (F : fit (s_sees sg) (s_own sg) L [] start) by (rewrite Hs; constructor; cbn; try discriminate; intros x v _ K; inv K).
  pose proof (C116_typed_expression checked fuel W HL Ht F) as P. destruct (interpret checked (functions_of defs) fuel body start); [apply P|eauto|exact I].
Qed.

(** Programs with global variables.  The value of each is computed, with the functions defined before it, when the program is loaded; the
    variables its expression assigns are there for what follows. *)
Inductive ty_defs (K L : name -> Prop) : functions -> ctx -> list expr -> functions -> ctx -> Prop :=
| td_nil : forall fns g, ty_defs K L fns g [] fns g
| td_fun : forall fns g f ps b defs fns' g', ty_defs K L (hm_set fns f (ps, b)) g defs fns' g' -> ty_defs K L fns g (EFun f ps b :: defs) fns' g'
| td_global : forall sigs fns g x e T g1 defs fns' g', well_typed sigs fns -> ty sigs [] K L g e T g1 -> ty_defs K L fns g1 defs fns' g' ->
    ty_defs K L fns g (EGlobal x e :: defs) fns' g'.
Lemma load_typed : forall checked fuel (K L : name -> Prop) fns g defs fns' g' s, (forall x, L x -> K x) -> ty_defs K L fns g defs fns' g' -> fit [] K L g s ->
  match load checked fuel fns defs s with
  | Ret f s' => f = fns' /\ fit [] K L g' s'
  | Pan _ => exists l1 x e l2 fns1 s1, defs = l1 ++ EGlobal x e :: l2 /\ load checked fuel fns l1 s = Ret fns1 s1 /\ fails checked fns1 e s1
  | Fuel => True
  end.
Proof.
  intros checked fuel K L fns g defs fns' g' s HL H. revert s. induction H as [fns g|fns g f ps b defs fns' g' H IH|sigs fns g x e T g1 defs fns' g' W Ht H IH]; intros s F; cbn [load].
  - now split.
  - specialize (IH s F). destruct (load checked fuel (hm_set fns f (ps, b)) defs s); [exact IH| |exact I].
    destruct IH as (l1 & y & d & l2 & fns1 & s1 & -> & E & X). exists (EFun f ps b :: l1), y, d, l2, fns1, s1. split; [reflexivity|]. now split.
  - pose proof (interpret_sound checked fns fuel e s) as S. destruct (interpret checked fns fuel e s) as [v s1|s1|] eqn:E; cbn [agrees bind] in *; [| |exact I].
    + destruct (proj1 (sound checked W) _ _ _ _ S _ _ _ _ _ _ HL Ht F) as [_ F1]. specialize (IH s1 F1).
      destruct (load checked fuel fns defs s1); [exact IH| |exact I].
      destruct IH as (l1 & y & d & l2 & fns1 & s2 & -> & E2 & X). exists (EGlobal x e :: l1), y, d, l2, fns1, s2. split; [reflexivity|]. split; [|exact X].
      cbn [load]. now rewrite E.
    + exists [], x, e, defs, fns, s. split; [reflexivity|]. split; [reflexivity|]. exact (proj1 (sound checked W) _ _ _ _ S _ _ _ _ _ _ HL Ht F).
Qed.
Theorem C116_typed_globals : forall checked fuel defs sigs (K L : name -> Prop) fns g ps body T g', (forall x, L x -> K x) -> ty_defs K L [] [] defs fns g ->
  well_typed sigs fns -> hm_get fns main_name = Some (ps, body) -> ty sigs [] K L g body T g' ->
  match call_main checked fuel (EProgram defs) with
  | Ret v _ => has_ty v T
  | Pan _ => (exists s1, load checked fuel [] defs start = Ret fns s1 /\ fails checked fns body s1) \/
             exists l1 x e l2 fns1 s1, defs = l1 ++ EGlobal x e :: l2 /\ load checked fuel [] l1 start = Ret fns1 s1 /\ fails checked fns1 e s1
  | Fuel => True
  end.
Proof.
  intros checked fuel defs sigs K L fns g ps body T g' HL Hd W G Ht.
  assert (F : fit [] K L [] start) by (constructor; cbn; try discriminate; intros x v _ X; inv X).
  pose proof (load_typed checked fuel HL Hd F) as P. unfold call_main. destruct (load checked fuel [] defs start) as [f s|s|]; cbn [bind]; [|now right|exact I].
  destruct P as [-> F1]. rewrite G. pose proof (C116_typed_expression checked fuel W HL Ht F1) as P.
  destruct (interpret checked fns fuel body s); [apply P|left; eauto|exact I].
Qed.
Print Assumptions C116_typed_globals.
(** var a = n = 3;  fun inc() { n + 1 }  fun main() { n = n + inc(); n } - the global variable [a] is dropped, the variable [n] stays. *)
Example C116_globals_case : let main := EBlock [EAssign (bs "n") (EBin OAdd (ESymbol (bs "n")) (ECall (bs "inc") [])); ESymbol (bs "n")] in
  let inc := EBlock [EBin OAdd (ESymbol (bs "n")) (EInt 1)] in let L := fun x => x = bs "n" in
  let fns := [(bs "inc", ([], inc)); (main_name, ([], main))] in
  let sigs := fun f => if list_eq_dec N.eq_dec f (bs "inc") then Some (Sig 0 [(bs "n", TInt)] (fun _ => False) TInt) else None in
  let defs := [EGlobal (bs "a") (EAssign (bs "n") (EInt 3)); EFun (bs "inc") [] inc; EFun main_name [] main] in
  ty_defs L L [] [] defs fns [(bs "n", TInt)] /\ well_typed sigs fns /\ hm_get fns main_name = Some ([], main) /\ ty sigs [] L L [(bs "n", TInt)] main TInt [(bs "n", TInt)] /\
  exists s, call_main true 20 (EProgram defs) = Ret (VInt 7) s.
Proof.
  intros main inc L fns sigs defs. split; [|split; [|split; [reflexivity|split; [|eexists; vm_compute; reflexivity]]]].
  - apply td_global with (sigs := fun _ => None) (T := TInt) (g1 := [(bs "n", TInt)]); [intros f sg E; discriminate| |do 2 apply td_fun; apply td_nil].
    apply (@ty_assign _ _ _ _ [] (bs "n") (EInt 3) TInt []); [reflexivity|apply ty_int].
  - intros f sg. unfold sigs. destruct (list_eq_dec N.eq_dec f (bs "inc")) as [->|]; [|discriminate]. intros E. inv E.
    exists [], inc, (fun _ => False), []. split; [reflexivity|]. split; [cbn; lia|]. split; [auto|]. apply ty_block1. eapply ty_arith; [constructor| |apply ty_int].
    apply ty_symbol. right. split; [auto|reflexivity].
  - apply ty_block with (T := TInt) (g1 := [(bs "n", TInt)]); [discriminate| |apply ty_block1, ty_symbol; now left].
    apply (@ty_assign _ _ _ _ [(bs "n", TInt)] (bs "n") _ TInt [(bs "n", TInt)]); [reflexivity|]. eapply ty_arith; [constructor|apply ty_symbol; now left|].
    eapply (@ty_call sigs _ _ _ _ (bs "inc") (Sig 0 [(bs "n", TInt)] (fun _ => False) TInt)); [reflexivity|apply tys_nil|cbn; lia|].
    split; [|intros x []]. intros x T. cbn [s_sees hm_get]. destruct (list_eq_dec N.eq_dec x (bs "n")) as [->|]; [|discriminate]. intros E. inv E. now left.
Qed.

(** fun inc() { n + 1 }
    fun main() { n = 3; t = 0; while (n > 0) { t = t + inc(); n = n - 1 }; println(t); t / n }
    is typed; it prints 9 and then fails, as n is 0. *)
Definition e_inc : expr := EBlock [EBin OAdd (ESymbol (bs "n")) (EInt 1)].
Definition e_loop : expr := EWhile (EBin OGt (ESymbol (bs "n")) (EInt 0))
  (EBlock [EAssign (bs "t") (EBin OAdd (ESymbol (bs "t")) (ECall (bs "inc") [])); EAssign (bs "n") (EBin OSub (ESymbol (bs "n")) (EInt 1))]).
Definition e_main : expr := EBlock [EAssign (bs "n") (EInt 3); EAssign (bs "t") (EInt 0); e_loop; EPrintln (ESymbol (bs "t")); EBin ODiv (ESymbol (bs "t")) (ESymbol (bs "n"))].
Definition sig_inc : signature := Sig 0 [(bs "n", TInt)] (fun _ => False) TInt.
Definition sig_main : signature := Sig 0 [] (fun _ => True) TInt.
Definition example_sigs (f : name) : option signature :=
  if list_eq_dec N.eq_dec f (bs "inc") then Some sig_inc else if list_eq_dec N.eq_dec f (bs "main") then Some sig_main else None.
Definition example_defs : list expr := [EFun (bs "inc") [] e_inc; EFun (bs "main") [] e_main].
Lemma sub_refl : forall g, sub g g.
Proof. intros g x T H. exact H. Qed.
Example C116_case : Forall is_fun example_defs /\ well_typed example_sigs (functions_of example_defs) /\ example_sigs main_name = Some sig_main /\ s_sees sig_main = [] /\
  (exists s, call_main true 20 (EProgram example_defs) = Pan s /\ out s = [VInt 9]) /\ fails true (functions_of example_defs) e_main start.
Proof.
  split; [repeat constructor|]. assert (W : well_typed example_sigs (functions_of example_defs)).
  { intros f sg. unfold example_sigs. destruct (list_eq_dec N.eq_dec f (bs "inc")) as [->|_]; [|destruct (list_eq_dec N.eq_dec f (bs "main")) as [->|_]; [|discriminate]]; intros E; inv E.
    - do 2 eexists. exists (fun _ => False). eexists. split; [reflexivity|]. split; [cbn; lia|]. split; [auto|].
      apply ty_block1. eapply ty_arith; [constructor| |apply ty_int]. apply ty_symbol. right. split; [auto|reflexivity].
    - do 2 eexists. exists (fun x => In x [bs "n"; bs "t"]). eexists. split; [reflexivity|]. split; [cbn; lia|]. split; [cbn; auto|].
      unfold e_main. eapply ty_block; [discriminate|apply ty_assign; [cbn; auto|apply ty_int]|]. eapply ty_block; [discriminate|apply ty_assign; [cbn; auto|apply ty_int]|].
      assert (Sy : forall D K L g x T, hm_get g x = Some T -> ty example_sigs D K L g (ESymbol x) T g) by (intros; apply ty_symbol; now left).
      eapply ty_block; [discriminate| |].
      + unfold e_loop. eapply ty_while; [eapply ty_cmp; [constructor|apply Sy; reflexivity|apply ty_int]| |].
        * eapply ty_block; [discriminate|apply ty_assign; [cbn; auto|]|apply ty_block1; apply ty_assign; [cbn; auto|]].
          -- eapply ty_arith; [constructor|apply Sy; reflexivity|]. eapply (@ty_call example_sigs _ _ _ _ (bs "inc") sig_inc); [reflexivity|apply tys_nil|cbn; lia|].
             split; [|intros x []]. intros x T. cbn [sig_inc s_sees hm_get]. destruct (list_eq_dec N.eq_dec x (bs "n")) as [->|]; [|discriminate]. intros E. inv E. left. reflexivity.
          -- eapply ty_arith; [constructor|apply Sy; reflexivity|apply ty_int].
        * apply sub_refl.
      + eapply ty_block; [discriminate|apply ty_println, Sy; reflexivity|apply ty_block1; eapply ty_arith; [constructor|apply Sy; reflexivity|apply Sy; reflexivity]]. }
  split; [exact W|]. split; [reflexivity|]. split; [reflexivity|]. split; [eexists; split; vm_compute; reflexivity|].
  assert (Fd : Forall is_fun example_defs) by repeat constructor. pose proof (@C116_typed_program true 20 example_defs example_sigs sig_main Fd W eq_refl eq_refl) as P.
  assert (E : exists s, call_main true 20 (EProgram example_defs) = Pan s) by (eexists; vm_compute; reflexivity). destruct E as (s & E). rewrite E in P.
  destruct P as (ps & body & G & P). inv G. exact P.
Qed.
Print Assumptions C116_typed_expression.
Print Assumptions C116_fails_panics.
Print Assumptions C116_never_panics.
Print Assumptions C116_typed_program.
