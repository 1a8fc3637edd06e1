(** C138: functions of toys that are running at the same time. *)
From Verif Require Import PropsI PropsJ PropsK.
From Verif Require Import Base Core Comb Closure Text Toys ToysParse ToysSyntax ToysSpec ToysFacts PropsAH ToysNest.
From Coq Require Import ZArith Lia.
Set Implicit Arguments.
Local Open Scope string_scope.
Local Open Scope nat_scope.
Local Open Scope list_scope.

Section Nest.
Variable checked : bool.
Variable fns : functions.
Notation ev := (ev checked fns).
Notation interpret := (interpret checked fns).
Notation enters := (enters checked fns).
Notation rel := (rel).

Lemma rel_refl : forall s, rel (fun _ => false) s s.
Proof. intros s. split; [reflexivity|]. split; [discriminate|reflexivity]. Qed.
(** A call that was entered while another call of the same function was running does not return. *)
Lemma reentered : forall f ps body t1 fs t2, hm_get fns f = Some (ps, body) -> env_bindings (env t1) = [] -> enters body t1 fs f t2 ->
  forall k w w', interpret k body t2 <> Ret w w'.
Proof.
  intros f ps body t1 fs t2 F B1 N. destruct (proj1 (enters_grows checked fns) _ _ _ _ _ N (inner_empty t1 B1)) as [B2 G].
  set (D := fun x => match valof (env_next (env t1)) x, valof (env_next (env t2)) x with None, Some _ => true | _, _ => false end).
  assert (R : rel D t1 t2).
  { split; [congruence|]. split; intros x Hx; unfold D in Hx.
    - destruct (valof (env_next (env t1)) x) eqn:V1; [discriminate|]. destruct (valof (env_next (env t2)) x) eqn:V2; [|discriminate]. split; [|eauto].
      unfold chain. rewrite valof_cons, B1. exact V1.
    - destruct (valof (env_next (env t1)) x) eqn:V1; [symmetry; now apply G|]. now destruct (valof (env_next (env t2)) x). }
  intros k. induction k as [k IH] using lt_wf_ind. intros w w' E.
  destruct (proj1 (enters_follow checked fns D) _ _ _ _ _ N _ _ _ _ R E) as (j & u' & ps' & body' & v & v' & L & R' & N' & F' & E'). rewrite F in F'. inv F'.
  assert (Z : forall x, D x = false).
  { intros x. destruct (D x) eqn:Hx; [|reflexivity]. exfalso. destruct R' as (_ & HD & _). destruct (HD x Hx) as [V _]. unfold chain in V. rewrite valof_cons, B2 in V. cbn in V.
    unfold D in Hx. rewrite V in Hx. now destruct (valof (env_next (env t1)) x). }
  assert (R0 : rel (fun _ => false) t2 u'). { destruct R' as (Q & _ & HN). split; [exact Q|]. split; [discriminate|]. intros x _. now apply HN. }
  pose proof (interpret_follows checked fns j body' R0) as H. rewrite E' in H. cbn in H.
  assert (M : interpret k body' t2 = interpret j body' t2). { apply interpret_more; [|lia]. intros Q. now rewrite Q in H. }
  destruct (interpret j body' t2) as [x x'|x'|] eqn:Q; [now destruct (IH j L x x')| |contradiction]. rewrite E in M. discriminate.
Qed.
Lemma enters_head : (forall e s fs g u, enters e s fs g u -> forall f fs', fs = f :: fs' ->
    exists t ps body, enters e s [] f t /\ hm_get fns f = Some (ps, body) /\ env_bindings (env t) = [] /\ enters body t fs' g u) /\
  (forall es s fs g u, enters_list checked fns es s fs g u -> forall f fs', fs = f :: fs' ->
    exists t ps body, enters_list checked fns es s [] f t /\ hm_get fns f = Some (ps, body) /\ env_bindings (env t) = [] /\ enters body t fs' g u).
Proof.
  apply enters_ind2; intros; try discriminate.
  all: try match goal with IH : forall f fs', ?fs = f :: fs' -> _, E : ?fs = _ :: _ |- _ => destruct (IH _ _ E) as (t0 & ps0 & body0 & A1 & A2 & A3 & A4); exists t0, ps0, body0; split; [|now split]; (econstructor; now eauto) end.
  all: match goal with E : _ :: _ = _ :: _ |- _ => injection E as <- <- end; exists (fresh s1), ps, body; (split; [econstructor; eauto|]); (split; [assumption|]); now split.
Qed.
Lemma enters_join : (forall e s fs f t, enters e s fs f t -> fs = [] -> forall ps body a g u, hm_get fns f = Some (ps, body) -> enters body t a g u -> enters e s (f :: a) g u) /\
  (forall es s fs f t, enters_list checked fns es s fs f t -> fs = [] -> forall ps body a g u, hm_get fns f = Some (ps, body) -> enters body t a g u -> enters_list checked fns es s (f :: a) g u).
Proof.
  apply enters_ind2; intros; try discriminate; try (econstructor; now eauto).
  match goal with A : hm_get fns f = Some ?d, B : hm_get fns f = Some _ |- _ => rewrite A in B; inv B end. eapply en_in; eauto.
Qed.
Lemma enters_prefix : forall fs e s g u a f b, enters e s fs g u -> fs ++ [g] = a ++ f :: b -> exists t, enters e s a f t.
Proof.
  induction fs as [|h fs IH]; intros e s g u a f b N E.
  - destruct a as [|x a]; cbn in E; inv E; [eauto|]. now destruct a.
  - destruct (proj1 enters_head _ _ _ _ _ N h fs eq_refl) as (t & ps & body & A1 & A2 & A3 & A4). destruct a as [|x a]; cbn in E; inv E; [eauto|].
    match goal with K : fs ++ [g] = _ |- _ => destruct (IH _ _ _ _ _ _ _ A4 K) as [t' N'] end. exists t'. eapply (proj1 enters_join); eauto.
Qed.
Lemma hm_in : forall V (m : list (name * V)) k v, hm_get m k = Some v -> In (k, v) m.
Proof.
  induction m as [|[k' v'] m IH]; intros k v H; [discriminate|]. cbn in H. destruct (list_eq_dec N.eq_dec k k') as [->|]; [inv H; now left|right; auto].
Qed.
Lemma enters_defined : (forall e s fs g u, enters e s fs g u -> incl (fs ++ [g]) (map fst fns)) /\ (forall es s fs g u, enters_list checked fns es s fs g u -> incl (fs ++ [g]) (map fst fns)).
Proof.
  assert (I : forall f d, hm_get fns f = Some d -> In f (map fst fns)) by (intros f d H; apply hm_in in H; apply in_map_iff; exists (f, d); now split).
  apply enters_ind2; intros; try assumption; intros x [<-|Hx]; eauto; now auto.
Qed.
(** While a call of [f] that returns is running, no function is entered that is running. *)
Lemma stack_distinct : forall fs f ps body t n v t' g u, hm_get fns f = Some (ps, body) -> env_bindings (env t) = [] -> interpret n body t = Ret v t' ->
  enters body t fs g u -> NoDup (f :: fs ++ [g]).
Proof.
  induction fs as [|h fs IH]; intros f ps body t n v t' g u F B E N.
  - constructor; [|constructor; [easy|constructor]]. intros [->|[]].
    destruct (proj1 (enters_follow checked fns (fun _ => false)) _ _ _ _ _ N _ _ _ _ (rel_refl t) E) as (j & u' & ps' & body' & w & w' & L & R' & N' & F' & E'). rewrite F in F'. inv F'.
    exact (@reentered _ _ _ _ _ _ F B N' j w w' E').
  - constructor.
    + intros I. apply in_split in I. destruct I as (a & b & I). destruct (@enters_prefix (h :: fs) _ _ _ _ a f b N I) as [t2 N2].
      destruct (proj1 (enters_follow checked fns (fun _ => false)) _ _ _ _ _ N2 _ _ _ _ (rel_refl t) E) as (j & u' & ps' & body' & w & w' & L & R' & N' & F' & E'). rewrite F in F'. inv F'.
      exact (@reentered _ _ _ _ _ _ F B N' j w w' E').
    + destruct (proj1 (enters_follow checked fns (fun _ => false)) _ _ _ _ _ N _ _ _ _ (rel_refl t) E) as (_ & u0 & _ & _ & _ & _ & _ & _ & N0 & _ & _).
      destruct (proj1 enters_head _ _ _ _ _ N h fs eq_refl) as (t1 & ps1 & body1 & A1 & A2 & A3 & A4).
      destruct (proj1 (enters_follow checked fns (fun _ => false)) _ _ _ _ _ A1 _ _ _ _ (rel_refl t) E) as (j & u' & ps' & body' & w & w' & L & R' & N' & F' & E'). rewrite A2 in F'. inv F'.
      destruct (proj1 (enters_follow checked fns (fun _ => false)) _ _ _ _ _ A4 _ _ _ _ R' E') as (j2 & u2 & _ & _ & _ & _ & _ & _ & N2 & _ & _).
      eapply IH; [exact A2| |exact E'|exact N2]. destruct R' as [Q _]. congruence.
Qed.
End Nest.

(** ** Runs that end in any way *)
Section Depth.
Variable checked : bool.
Variable fns : functions.
Variable xs : list name.
Notation interpret := (interpret checked fns).
Notation enters := (enters checked fns).
Notation framed := (framed (fun x => In x xs)).
Hypothesis HB : bodies fns (fun x => In x xs).
Definition defined (bs : list bindings) (x : name) : bool := match valof bs x with Some _ => true | None => false end.
(** How many of the names are defined. *)
Definition size (bs : list bindings) : nat := length (filter (defined bs) xs).
Definition extends (N M : list bindings) : Prop := (forall x v, valof N x = Some v -> valof M x = Some v) /\ forall x v, valof M x = Some v -> (exists w, valof N x = Some w) \/ In x xs.
Lemma filter_grows : forall (p q : name -> bool) l, (forall x, p x = true -> q x = true) -> length (filter p l) <= length (filter q l) /\
  (length (filter p l) = length (filter q l) -> forall x, In x l -> q x = true -> p x = true).
Proof.
  intros p q l H. induction l as [|y l [L IH]]; cbn [filter length]; [split; [lia|easy]|].
  destruct (p y) eqn:P, (q y) eqn:Q; cbn [length].
  - split; [lia|]. intros E x [<-|I] Hq; [exact P|apply IH; [lia|exact I|exact Hq]].
  - rewrite (H y P) in Q. discriminate.
  - split; [lia|]. intros E. lia.
  - split; [exact L|]. intros E x [<-|I] Hq; [congruence|now apply IH].
Qed.
Lemma extends_same : forall N M, extends N M -> size N = size M -> forall x, valof M x = valof N x.
Proof.
  intros N M [G S] E x. destruct (@filter_grows (defined N) (defined M) xs) as [_ K].
  { intros y. unfold defined. destruct (valof N y) eqn:V; [|discriminate]. now rewrite (G _ _ V). }
  specialize (K E x). destruct (valof M x) eqn:V.
  - destruct (valof N x) as [w|] eqn:W; [apply G in W; congruence|]. destruct (S _ _ V) as [[w W']|I]; [congruence|]. specialize (K I). unfold defined in K. rewrite V, W in K. now specialize (K eq_refl).
  - destruct (valof N x) eqn:W; [apply G in W; congruence|reflexivity].
Qed.
Lemma filter_le : forall A (p : A -> bool) l, length (filter p l) <= length l.
Proof. intros A p l. induction l as [|x l IH]; cbn; [lia|]. destruct (p x); cbn; lia. Qed.
Lemma size_le : forall N, size N <= length xs.
Proof. intros N. apply filter_le. Qed.
(** The call of [h] that sees [N] does not end with fuel [n]. *)
Definition stuck (n : nat) (h : name) (N : list bindings) : Prop := forall ps body t, hm_get fns h = Some (ps, body) -> env_bindings (env t) = [] ->
  (forall x, valof (env_next (env t)) x = valof N x) -> interpret n body t = Fuel.
Definition key (e : name * list bindings) : name * nat := (fst e, size (snd e)).
Lemma stuck_less : forall n m h N, stuck n h N -> m <= n -> stuck m h N.
Proof.
  intros n m h N S L ps body t F B V. specialize (S ps body t F B V). destruct (interpret m body t) eqn:E; try reflexivity; (assert (K : interpret n body t = interpret m body t) by (apply interpret_more; [congruence|exact L])); congruence.
Qed.
Lemma least : forall n e s, interpret n e s <> Fuel -> exists k, k <= n /\ interpret k e s <> Fuel /\ interpret (pred k) e s = Fuel.
Proof.
  induction n as [|n IH]; intros e s H; [now destruct H|]. destruct (interpret n e s) eqn:E.
  - destruct (IH e s) as (k & L & K); [congruence|]. exists k. split; [lia|exact K].
  - destruct (IH e s) as (k & L & K); [congruence|]. exists k. split; [lia|exact K].
  - exists (S n). split; [lia|]. split; [exact H|exact E].
Qed.
Lemma dec_in : forall x : name, In x xs \/ ~ In x xs.
Proof. intros x. destruct (in_dec (list_eq_dec N.eq_dec) x xs); auto. Qed.
Lemma keys_bound : forall K, NoDup (map key K) -> (forall h N, In (h, N) K -> In h (map fst fns)) -> length K <= length fns * S (length xs).
Proof.
  intros K D H. rewrite <- (map_length key K), <- (map_length fst fns). rewrite <- (seq_length (S (length xs)) 0) at 1. rewrite <- prod_length. apply NoDup_incl_length; [exact D|].
  intros k I. apply in_map_iff in I. destruct I as ([h N] & <- & I). apply in_prod; [exact (H _ _ I)|]. cbn [fst snd]. apply in_seq. pose proof (size_le N). lia.
Qed.
Lemma entry : forall e s fs h t K n, enters e s fs h t -> (forall x, assigns x e -> In x xs) -> framed s -> inner s -> interpret n e s <> Fuel ->
  (forall g N, In (g, N) K -> In g (map fst fns) /\ extends N (env_next (env s)) /\ stuck (pred n) g N) ->
  env_bindings (env t) = [] /\ (forall g N, In (g, N) K -> extends N (env_next (env t))) /\ ~ In (key (h, env_next (env t))) (map key K) /\
  exists j ps body, j < n /\ hm_get fns h = Some (ps, body) /\ interpret j body t <> Fuel.
Proof.
  intros e s fs h t K n N HA F I E HK. destruct (proj1 (enters_grows checked fns) _ _ _ _ _ N I) as [B G]. pose proof (proj1 (@enters_named checked fns (fun x => In x xs) dec_in HB) _ _ _ _ _ N HA F) as Nm.
  assert (X : forall g M, In (g, M) K -> extends M (env_next (env t))).
  { intros g M Hg. destruct (HK g M Hg) as (_ & [X1 X2] & _). split; [intros x v V; now apply G, X1|]. intros x v V. destruct (Nm x v V) as [[w W]|W]; [exact (X2 _ _ W)|now right]. }
  destruct (proj1 (enters_ends checked fns) _ _ _ _ _ N n E) as (j & ps & body & L & Hf & Q).
  split; [exact B|]. split; [exact X|]. split; [|now exists j, ps, body].
  intros M. apply in_map_iff in M. destruct M as ([g M] & Ek & Hg). cbn in Ek. injection Ek as -> Es. destruct (HK h M Hg) as (_ & _ & S). apply Q.
  refine (@stuck_less _ j _ _ S _ ps body t Hf B _); [lia|]. exact (extends_same (X h M Hg) Es).
Qed.
Lemma depth : forall fs e s g u K n, enters e s fs g u -> (forall x, assigns x e -> In x xs) -> framed s -> inner s -> interpret n e s <> Fuel ->
  (forall h N, In (h, N) K -> In h (map fst fns) /\ extends N (env_next (env s)) /\ stuck (pred n) h N) -> NoDup (map key K) ->
  length K + length (fs ++ [g]) <= length fns * S (length xs).
Proof.
  assert (Hin : forall h ps body, hm_get fns h = Some (ps, body) -> In h (map fst fns)) by (intros h ps body H; apply in_map_iff; exists (h, (ps, body)); split; [reflexivity|now apply hm_in]).
  induction fs as [|h fs IH]; intros e s g u K n N HA F I E HK D.
  - destruct (entry K n N HA F I E HK) as (B & X & M & j & ps & body & L & Hf & Q). change (length K + 1 <= length fns * S (length xs)).
    assert (Y : length ((g, env_next (env u)) :: K) <= length fns * S (length xs)); [|cbn [length] in Y; lia].
    apply keys_bound; [constructor; assumption|]. intros h N' [Eh|Hh]; [injection Eh as <- <-; eauto|now destruct (HK h N' Hh)].
  - destruct (proj1 (enters_head checked fns) _ _ _ _ _ N h fs eq_refl) as (t & ps & body & A1 & A2 & A3 & A4).
    destruct (entry K n A1 HA F I E HK) as (B & X & M & j & ps' & body' & L & Hf & Q). rewrite A2 in Hf. injection Hf as <- <-.
    destruct (least _ _ _ Q) as (k & Lk & Q1 & Q2).
    specialize (IH body t g u ((h, env_next (env t)) :: K) k A4). cbn [length app]. cbn [length] in IH.
    enough (S (length K) + length (fs ++ [g]) <= length fns * S (length xs)) by lia. apply IH; [intros x; eapply HB; exact A2|intros x v V; rewrite A3 in V; discriminate|now apply inner_empty|exact Q1| |constructor; assumption].
    intros h' N' [Eh|Hh]; [injection Eh as <- <-|destruct (HK h' N' Hh) as (I1 & _ & S1)].
    + split; [eauto|]. split; [split; eauto|]. intros ps1 body1 t1 F1 B1 V1. rewrite A2 in F1. injection F1 as <- <-. eapply alike_ends; [|exact Q2]. split; [congruence|]. intros x. now rewrite V1.
    + split; [exact I1|]. split; [now apply (X h')|]. eapply stuck_less; [exact S1|lia].
Qed.
End Depth.

(** ** C138 *)
(** A call of a function that is entered while a call of the same function is running never returns: it panics or runs for ever. *)
Theorem C138_reentered : forall checked fns f ps body t1 fs t2 v t3, hm_get fns f = Some (ps, body) -> env_bindings (env t1) = [] ->
  enters checked fns body t1 fs f t2 -> ~ ev checked fns body t2 (Some v) t3.
Proof.
  intros checked fns f ps body t1 fs t2 v t3 F B N H. apply interpret_ev in H. destruct H as [k H]. exact (@reentered checked fns _ _ _ _ _ _ F B N k v t3 H).
Qed.
(** So the functions running at any time of a call that returns are all different, and there are at most as many as are defined. *)
Theorem C138_call : forall checked fns f ps body t v t' fs g u, hm_get fns f = Some (ps, body) -> env_bindings (env t) = [] ->
  ev checked fns body t (Some v) t' -> enters checked fns body t fs g u ->
  NoDup (f :: fs ++ [g]) /\ length (f :: fs ++ [g]) <= length fns.
Proof.
  intros checked fns f ps body t v t' fs g u F B H N. apply interpret_ev in H. destruct H as [k H]. pose proof (@stack_distinct checked fns fs f ps body t k v t' g u F B H N) as D. split; [exact D|].
  rewrite <- (map_length fst fns). apply NoDup_incl_length; [exact D|]. intros x [<-|Hx]; [apply in_map_iff; exists (f, (ps, body)); split; [reflexivity|now apply hm_in]|].
  now apply (proj1 (enters_defined checked fns) _ _ _ _ _ N).
Qed.
(** The same for any expression, whatever its frame holds. *)
Theorem C138_expression : forall checked fns e s v s' fs g u, ev checked fns e s (Some v) s' -> enters checked fns e s fs g u ->
  NoDup (fs ++ [g]) /\ length (fs ++ [g]) <= length fns.
Proof.
  intros checked fns e s v s' fs g u H N.
  assert (D : NoDup (fs ++ [g])).
  { destruct fs as [|f fs]; [constructor; [easy|constructor]|]. apply interpret_ev in H. destruct H as [k H].
    destruct (proj1 (enters_head checked fns) _ _ _ _ _ N f fs eq_refl) as (t1 & ps1 & body1 & A1 & A2 & A3 & A4).
    destruct (proj1 (enters_follow checked fns (fun _ => false)) _ _ _ _ _ A1 _ _ _ _ (rel_refl s) H) as (j & u' & ps' & body' & w & w' & L & R' & N' & F' & E'). rewrite A2 in F'. inv F'.
    destruct (proj1 (enters_follow checked fns (fun _ => false)) _ _ _ _ _ A4 _ _ _ _ R' E') as (j2 & u2 & _ & _ & _ & _ & _ & _ & N2 & _ & _).
    eapply (@stack_distinct checked fns fs f); [exact A2| |exact E'|exact N2]. destruct R' as [Q _]. congruence. }
  split; [exact D|]. rewrite <- (map_length fst fns). apply NoDup_incl_length; [exact D|]. now apply (proj1 (enters_defined checked fns) _ _ _ _ _ N).
Qed.

(** Runs that end with a panic are bounded too: the names assigned in the program are enough to tell calls apart. *)
Theorem C138_ends : forall checked fns xs e s r s' fs g u, (forall x, assigns x e -> In x xs) -> (forall f ps body x, hm_get fns f = Some (ps, body) -> assigns x body -> In x xs) ->
  env_bindings (env s) = [] -> ev checked fns e s r s' -> enters checked fns e s fs g u ->
  length (fs ++ [g]) <= length fns * S (length xs).
Proof.
  intros checked fns xs e s r s' fs g u HA HB B H N. apply interpret_ev in H. destruct H as [n H].
  refine (@depth checked fns xs HB fs e s g u [] n N HA _ (inner_empty s B) _ _ _); [intros x v V; rewrite B in V; discriminate|rewrite H; now destruct r|easy|constructor].
Qed.

(** ** Whole programs *)
Lemma set_length : forall V (m : list (list N * V)) k v, length (hm_set m k v) <= S (length m).
Proof. induction m as [|[k' v'] m IH]; intros k v; cbn [hm_set length]; [lia|]. destruct (list_eq_dec N.eq_dec k k'); cbn [length]; [lia|]. specialize (IH k v). lia. Qed.
Definition is_fun (e : expr) : bool := match e with EFun _ _ _ => true | _ => false end.
Lemma load_length : forall checked fuel defs fns s fns' s', load checked fuel fns defs s = Ret fns' s' -> length fns' <= length fns + length (filter is_fun defs).
Proof.
  intros checked fuel defs. induction defs as [|d defs IH]; intros fns s fns' s' H; cbn [load] in H; [inv H; lia|].
  destruct d; try discriminate; cbn [filter is_fun length].
  - step H. exact (IH _ _ _ _ H).
  - specialize (IH _ _ _ _ H). pose proof (set_length fns f (params, d)) as K. unfold functions, name in *. lia.
Qed.
Lemma bindings_empty : forall b : bindings, (forall x, hm_get b x = None) -> b = [].
Proof. intros [|[k v] b] H; [reflexivity|]. specialize (H k). cbn in H. now destruct (list_eq_dec N.eq_dec k k). Qed.
Lemma load_frame : forall checked fuel defs fns s fns' s', (forall x e y, In (EGlobal x e) defs -> ~ assigns y e) -> load checked fuel fns defs s = Ret fns' s' ->
  forall x, hm_get (env_bindings (env s')) x = hm_get (env_bindings (env s)) x.
Proof.
  intros checked fuel defs. induction defs as [|d defs IH]; intros fns s fns' s' A H x; cbn [load] in H; [now inv H|].
  destruct d; try discriminate.
  - step H. apply interpret_kept in E. destruct E as [_ K]. rewrite (IH _ _ _ _ (fun x e y I => A x e y (or_intror I)) H). apply K. eapply A. now left.
  - exact (IH _ _ _ _ (fun x e y I => A x e y (or_intror I)) H x).
Qed.
(** In a program that ends normally main is not entered again, no function is entered that is running, and no more calls are running than functions are defined. *)
Theorem C138_program : forall checked fuel defs v s', (forall x e y, In (EGlobal x e) defs -> ~ assigns y e) -> call_main checked fuel (EProgram defs) = Ret v s' ->
  exists fns s ps body, load checked fuel [] defs start = Ret fns s /\ hm_get fns main_name = Some (ps, body) /\ ev checked fns body s (Some v) s' /\
  forall fs g u, enters checked fns body s fs g u -> NoDup (main_name :: fs ++ [g]) /\ length (main_name :: fs ++ [g]) <= length (filter is_fun defs).
Proof.
  intros checked fuel defs v s' A H. cbn [call_main] in H. apply bind_ret in H. destruct H as (fns & s & L & H). destruct (hm_get fns main_name) as [[ps body]|] eqn:F; [|discriminate].
  assert (B : env_bindings (env s) = []) by (apply bindings_empty; intros x; rewrite (@load_frame _ _ _ _ _ _ _ A L); reflexivity).
  assert (E : ev checked fns body s (Some v) s') by (apply interpret_ev; eauto).
  exists fns, s, ps, body. split; [exact L|]. split; [exact F|]. split; [exact E|]. intros fs g u N. destruct (C138_call _ F B E N) as [D M]. split; [exact D|].
  etransitivity; [exact M|]. exact (@load_length _ _ _ _ _ _ _ L).
Qed.

(** The same for the text of a program: the parser reads no assignment in the initialiser of a global. *)
Lemma lev_assigns : forall st, (forall k e s, lev st k e s -> forall y, ~ assigns y e) /\ (forall es s, args st es s -> forall y e, In e es -> ~ assigns y e) /\
  (forall es s, more_args st es s -> forall y e, In e es -> ~ assigns y e) /\ (forall ps s, params st ps s -> forall y e, In e (map snd ps) -> ~ assigns y e) /\
  (forall ps s, more_params st ps s -> forall y e, In e (map snd ps) -> ~ assigns y e).
Proof.
  intros st. apply lev_ind5.
  - intros e o s c _ _ IH _ y A. inversion A; subst. eapply IH; eauto.
  - intros z t s _ _ y A. inversion A.
  - intros v t s _ _ y A. inversion A.
  - intros f n o s c es _ _ _ _ IH _ y A. inversion A; subst. eapply IH; eauto.
  - intros f n o s c es _ _ _ _ IH _ y A. inversion A; subst. eapply IH; eauto.
  - intros o s c es _ _ IH _ y A. inversion A.
  - intros b s _ y A. inversion A.
  - intros x s _ _ _ y A. inversion A.
  - intros k e s _ IH _. exact IH.
  - intros k o l r s t u _ IH1 _ _ _ IH2 y A. inversion A; subst; [eapply IH1|eapply IH2]; eauto.
  - intros y e [].
  - intros e es s t _ IH1 _ IH2 y d [<-|I]; eauto.
  - intros y e [].
  - intros c _ y e [].
  - intros c e es s t _ _ IH1 _ IH2 y d [<-|I]; eauto.
  - intros x n w e s ps t _ _ _ _ _ IH1 _ IH2 y d [<-|I]; eauto.
  - intros y e [].
  - intros c _ y e [].
  - intros c ps s _ _ IH. exact IH.
Qed.
Theorem C138_text : forall nd checked fuel text v s', ascii_class nd -> run_text nd checked fuel text = Ret v s' ->
  exists defs n fns s ps body, parse (program nd) text = Success (EProgram defs) n /\ load checked fuel [] defs start = Ret fns s /\ hm_get fns main_name = Some (ps, body) /\
  ev checked fns body s (Some v) s' /\
  forall fs g u, enters checked fns body s fs g u -> NoDup (main_name :: fs ++ [g]) /\ length (main_name :: fs ++ [g]) <= length (filter is_fun defs).
Proof.
  intros nd checked fuel text v s' H R. unfold run_text in R. destruct (parse (program nd) text) as [e n|? ?| |] eqn:E; try discriminate.
  destruct (C82_program_sound _ H E) as (_ & a & t & es & _ & _ & G & ->).
  assert (A : forall x d y, In (EGlobal x d) es -> ~ assigns y d).
  { clear - G. intros x d y. induction G as [|e es s t D _ IH]; [easy|]. intros [->|I]; [|auto]. inversion D; subst. eapply (proj1 (lev_assigns false)); eauto. }
  destruct (@C138_program _ _ _ _ _ A R) as (fns & s & ps & body & K). exists es, n, fns, s, ps, body. split; [reflexivity|exact K].
Qed.
(** ** Cases *)
(** fn f() { g() } fn g() { 1 }: both functions run at the same time. *)
Definition ex_fns : functions := [(bs "f", ([], EBlock [ECall (bs "g") []])); (bs "g", ([], EBlock [EInt 1]))].
Example C138_call_example : exists t' u, ev true ex_fns (EBlock [ECall (bs "g") []]) start (Some (VInt 1)) t' /\
  enters true ex_fns (EBlock [ECall (bs "g") []]) start [] (bs "g") u /\ length (bs "f" :: [] ++ [bs "g"]) = length ex_fns.
Proof.
  do 2 eexists. split; [apply interpret_ev; exists 5; vm_compute; reflexivity|]. split; [|reflexivity]. apply en_block, en_here. eapply en_call; [reflexivity|apply evs_nil|cbn; lia].
Qed.
(** fn f() { x = 1; f() } panics at the assignment of the second call; fn f() { f() } runs for ever. *)
Definition ex_rec : functions := [(bs "f", ([], EBlock [EAssign (bs "x") (EInt 1); ECall (bs "f") []]))].
Definition ex_loop : functions := [(bs "f", ([], EBlock [ECall (bs "f") []]))].
Example C138_reentered_example :
  (exists u t3, enters true ex_rec (EBlock [EAssign (bs "x") (EInt 1); ECall (bs "f") []]) start [] (bs "f") u /\ ev true ex_rec (EBlock [EAssign (bs "x") (EInt 1); ECall (bs "f") []]) u None t3) /\
  forall n s, interpret true ex_loop n (ECall (bs "f") []) s = Fuel.
Proof.
  split.
  - do 2 eexists. split; [apply en_block; eapply en_later; [eapply ev_assign; [apply ev_int|left; intros [v V]; inversion V; [discriminate|]; match goal with H : lookup [] _ _ |- _ => inversion H end]|];
      apply en_here; eapply en_call; [reflexivity|apply evs_nil|cbn; lia]|]. apply interpret_ev. exists 9. vm_compute. reflexivity.
  - assert (G : forall n, (forall s, interpret true ex_loop n (ECall (bs "f") []) s = Fuel) /\ (forall s, interpret true ex_loop n (EBlock [ECall (bs "f") []]) s = Fuel)).
    { induction n as [|n [IH1 IH2]]; [now split|]. split; intros s; cbn [interpret].
      - change (hm_get ex_loop (bs "f")) with (Some (@nil name, EBlock [ECall (bs "f") []])). cbn. now rewrite IH2.
      - cbn [eval_block]. now rewrite IH1. }
    intros n. apply G.
Qed.
(** The bound of C138_ends is reached: one function, one variable, two calls. *)
Example C138_ends_example : exists s' u, ev true ex_rec (ECall (bs "f") []) start None s' /\ enters true ex_rec (ECall (bs "f") []) start [bs "f"] (bs "f") u /\
  length ([bs "f"] ++ [bs "f"]) = length ex_rec * S (length [bs "x"]) /\ (forall f ps body x, hm_get ex_rec f = Some (ps, body) -> assigns x body -> In x [bs "x"]).
Proof.
  do 2 eexists. split; [apply interpret_ev; exists 9; vm_compute; reflexivity|]. split; [|split; [reflexivity|]].
  - eapply en_in; [reflexivity|apply evs_nil|cbn; lia|]. apply en_block. eapply en_later; [eapply ev_assign; [apply ev_int|left; intros [v V]]|].
    + apply valof_lookup in V. vm_compute in V. discriminate.
    + apply en_here. eapply en_call; [reflexivity|apply evs_nil|cbn; lia].
  - intros f ps body x H A. cbn [hm_get ex_rec] in H. destruct (list_eq_dec _ f (bs "f")); [|discriminate]. injection H as <- <-. inversion A; subst.
    match goal with I : In ?e _, K : assigns x ?e |- _ => destruct I as [<-|[<-|[]]]; inversion K; subst end; [now left| |contradiction]. match goal with K : assigns x (EInt 1) |- _ => inversion K end.
Qed.
Example C138_program_example : exists v s', call_main true 9 (EProgram [EGlobal (bs "x") (EInt 1); EFun (bs "g") [] (EBlock [EInt 1]); EFun (bs "main") [] (EBlock [ECall (bs "g") []])]) = Ret v s' /\
  forall x e y, In (EGlobal x e) [EGlobal (bs "x") (EInt 1); EFun (bs "g") [] (EBlock [EInt 1]); EFun (bs "main") [] (EBlock [ECall (bs "g") []])] -> ~ assigns y e.
Proof. do 2 eexists. split; [vm_compute; reflexivity|]. intros x e y [E|[E|[E|[]]]]; inv E. intros A. inversion A. Qed.
Example C138_text_example : exists v s', run_text nd0 true 9 (bs "global x = 1; fn g() { 1; } fn main() { g(); }") = Ret v s'.
Proof. do 2 eexists. vm_compute. reflexivity. Qed.
Print Assumptions C138_reentered.
Print Assumptions C138_call.
Print Assumptions C138_expression.
Print Assumptions C138_program.
Print Assumptions C138_text.
Print Assumptions C138_ends.
