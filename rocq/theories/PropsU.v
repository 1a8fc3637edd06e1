(** C107: toys programs and their definitions. *)
From Verif Require Import Base Closure Text Toys ToysSpec ToysFacts PropsG.
From Coq Require Import ZArith.
Set Implicit Arguments.
Local Open Scope string_scope.
Local Open Scope nat_scope.
Local Open Scope list_scope.

(** ** C107 *)
(** The definition of a function in a list of definitions: the last one with its name. *)
Definition defines (f : name) (d : expr) : option (list name * expr) :=
  match d with EFun g ps b => if list_eq_dec N.eq_dec f g then Some (ps, b) else None | _ => None end.
Definition last_def (f : name) (defs : list expr) : option (list name * expr) :=
  fold_left (fun found d => match defines f d with Some x => Some x | None => found end) defs None.
(** An expression runs where the functions are those of [defs]. *)
Definition runs_in (checked : bool) (defs : list expr) (e : expr) (s : state) (r : option value) (s' : state) : Prop :=
  exists fns, (forall f, hm_get fns f = last_def f defs) /\ runs checked fns e s r s'.
(** The initialisers of the global variables run in order, each where the functions are those defined before it; [ok] is
    false if one panics.  [pre] are the definitions before. *)
Inductive initialises (checked : bool) : list expr -> list expr -> state -> bool -> state -> Prop :=
| in_nil : forall pre s, initialises checked pre [] s true s
| in_fun : forall pre f ps b defs s ok s', initialises checked (pre ++ [EFun f ps b]) defs s ok s' -> initialises checked pre (EFun f ps b :: defs) s ok s'
| in_global : forall pre x e defs s v s1 ok s', runs_in checked pre e s (Some v) s1 ->
    initialises checked (pre ++ [EGlobal x e]) defs s1 ok s' -> initialises checked pre (EGlobal x e :: defs) s ok s'
| in_panic : forall pre x e defs s s1, runs_in checked pre e s None s1 -> initialises checked pre (EGlobal x e :: defs) s false s1.
(** Then the body of the last function main runs where all functions are defined, without binding any parameter; without a
    function main the program panics. *)
Definition program_runs (checked : bool) (defs : list expr) (r : option value) (s' : state) : Prop :=
  (exists s, initialises checked [] defs start true s /\
     match last_def (bs "main") defs with Some (_, body) => runs_in checked defs body s r s' | None => r = None /\ s' = s end) \/
  (initialises checked [] defs start false s' /\ r = None).
Definition top_level (d : expr) : Prop := match d with EGlobal _ _ | EFun _ _ _ => True | _ => False end.

(** *** Proofs *)
Lemma last_def_snoc : forall f defs d, last_def f (defs ++ [d]) = match defines f d with Some x => Some x | None => last_def f defs end.
Proof. intros f defs d. unfold last_def. now rewrite fold_left_app. Qed.
(** The functions matter only through what is found. *)
Lemma eval_args_ext : forall (g g' : expr -> state -> result value), (forall e s, g e s = g' e s) -> forall es s, eval_args g es s = eval_args g' es s.
Proof.
  intros g g' E es. induction es as [|e es IH]; intros s; [reflexivity|]. cbn [eval_args]. rewrite E. destruct (g' e s); try reflexivity. cbn [bind]. now rewrite IH.
Qed.
Lemma eval_block_ext : forall (g g' : expr -> state -> result value), (forall e s, g e s = g' e s) -> forall es v s, eval_block g es v s = eval_block g' es v s.
Proof.
  intros g g' E es. induction es as [|e es IH]; intros v s; [reflexivity|]. cbn [eval_block]. rewrite E. destruct (g' e s); try reflexivity. cbn [bind]. now rewrite IH.
Qed.
Lemma bind_ext : forall (A B : Type) (r r' : result A) (k k' : A -> state -> result B), r = r' -> (forall a s, k a s = k' a s) -> bind r k = bind r' k'.
Proof. intros A B r r' k k' -> E. destruct r'; cbn [bind]; auto. Qed.
Lemma interpret_ext : forall checked fns fns', (forall f, hm_get fns f = hm_get fns' f) -> forall fuel e s, interpret checked fns fuel e s = interpret checked fns' fuel e s.
Proof.
  intros checked fns fns' E fuel. induction fuel as [|fuel IH]; intros e s; [reflexivity|].
  pose proof (eval_args_ext _ _ IH) as EA. pose proof (eval_block_ext _ _ IH) as EB.
  destruct e; cbn [interpret]; try reflexivity; try apply IH; try apply EB; rewrite ?E; try (destruct (hm_get fns' f) as [[ps b]|]; [|reflexivity]);
    repeat first [apply bind_ext; [apply IH || apply EA || reflexivity|intros ? ?] | reflexivity | apply IH | match goal with |- context [match ?x with _ => _ end] => destruct x end].
Qed.
Lemma runs_ext : forall checked fns fns' e s r s', (forall f, hm_get fns f = hm_get fns' f) -> runs checked fns e s r s' -> runs checked fns' e s r s'.
Proof. intros checked fns fns' e s r s' E (fuel & H). exists fuel. now rewrite <- (@interpret_ext checked fns fns' E). Qed.
Lemma runs_fuel : forall checked fns e s r s', runs checked fns e s r s' -> exists n, forall fuel, n <= fuel -> interpret checked fns fuel e s = answer r s'.
Proof.
  intros checked fns e s r s' (n & H). exists n. intros fuel L. rewrite <- H. apply C56_fuel_irrelevant; [|exact L].
  rewrite H. destruct r; discriminate.
Qed.
Lemma load_initialises : forall checked fuel defs pre fns s, Forall top_level defs -> (forall f, hm_get fns f = last_def f pre) ->
  match load checked fuel fns defs s with
  | Ret fns' s' => initialises checked pre defs s true s' /\ forall f, hm_get fns' f = last_def f (pre ++ defs)
  | Pan s' => initialises checked pre defs s false s'
  | Fuel => True
  end.
Proof.
  intros checked fuel defs. induction defs as [|d defs IH]; intros pre fns s T E; [cbn [load]; rewrite app_nil_r; split; [constructor|exact E]|].
  inv T. destruct d; try contradiction; cbn [load].
  - destruct (interpret checked fns fuel d s) as [v s1|s1|] eqn:I; cbn [bind]; [|apply in_panic; exists fns; split; [exact E|now exists fuel]|exact Logic.I].
    assert (E' : forall f, hm_get fns f = last_def f (pre ++ [EGlobal x d])) by (intros f; rewrite last_def_snoc; cbn; apply E).
    specialize (IH _ _ s1 H2 E'). replace (pre ++ EGlobal x d :: defs) with ((pre ++ [EGlobal x d]) ++ defs) by (rewrite <- app_assoc; reflexivity).
    assert (R : runs_in checked pre d s (Some v) s1) by (exists fns; split; [exact E|now exists fuel]).
    destruct (load checked fuel fns defs s1); [destruct IH; split; [|assumption]| |exact Logic.I]; econstructor; eauto.
  - assert (E' : forall g, hm_get (hm_set fns f (params, d)) g = last_def g (pre ++ [EFun f params d])).
    { intros g. rewrite last_def_snoc, hm_get_set. cbn [defines]. destruct (list_eq_dec N.eq_dec g f); [reflexivity|apply E]. }
    specialize (IH _ _ s H2 E'). replace (pre ++ EFun f params d :: defs) with ((pre ++ [EFun f params d]) ++ defs) by (rewrite <- app_assoc; reflexivity).
    destruct (load checked fuel (hm_set fns f (params, d)) defs s); [destruct IH; split; [|assumption]| |exact Logic.I]; now constructor.
Qed.
Lemma initialises_load : forall checked pre defs s ok s', initialises checked pre defs s ok s' -> forall fns, (forall f, hm_get fns f = last_def f pre) ->
  exists n, forall fuel, n <= fuel -> if ok then exists fns', load checked fuel fns defs s = Ret fns' s' else load checked fuel fns defs s = Pan s'.
Proof.
  intros checked pre defs s ok s' H. induction H as [pre s|pre f ps b defs s ok s' H IH|pre x e defs s v s1 ok s' R H IH|pre x e defs s s1 R]; intros fns E.
  - exists 0. intros fuel _. now exists fns.
  - destruct (IH (hm_set fns f (ps, b))) as [n K]; [|exists n; exact K].
    intros g. rewrite last_def_snoc, hm_get_set. cbn [defines]. destruct (list_eq_dec N.eq_dec g f); [reflexivity|apply E].
  - destruct R as (fns0 & E0 & R). apply (@runs_ext _ _ fns) in R; [|intros f; now rewrite E, E0]. apply runs_fuel in R. destruct R as [n1 R].
    destruct (IH fns) as [n2 K]; [intros f; rewrite last_def_snoc; apply E|]. exists (max n1 n2). intros fuel L. cbn [load]. rewrite R by lia. cbn [answer bind]. apply K. lia.
  - destruct R as (fns0 & E0 & R). apply (@runs_ext _ _ fns) in R; [|intros f; now rewrite E, E0]. apply runs_fuel in R. destruct R as [n1 R].
    exists n1. intros fuel L. cbn [load]. now rewrite R.
Qed.
(** call_main does what the definitions say: every name means its last definition. *)
Theorem C107_program : forall checked defs r s', Forall top_level defs ->
  ((exists fuel, call_main checked fuel (EProgram defs) = answer r s') <-> program_runs checked defs r s').
Proof.
  intros checked defs r s' T. assert (E0 : forall f, hm_get ([] : functions) f = last_def f []) by reflexivity. split.
  - intros (fuel & H). unfold call_main in H. match type of H with context [load _ _ ?c _ _] => pose proof (@load_initialises checked fuel defs [] c start T E0) as L end.
    destruct (load checked fuel [] defs start) as [fns s|s|]; cbn [bind] in H; [|right|destruct r; discriminate].
    + left. destruct L as [L K]. cbn [app] in K. exists s. split; [exact L|]. change (bs "main") with main_name. rewrite <- K.
      destruct (hm_get fns main_name) as [[ps body]|]; [exists fns; split; [exact K|now exists fuel]|]. destruct r; inv H. auto.
    + destruct r; inv H. auto.
  - intros [(s & I & M)|[I ->]].
    + destruct (initialises_load I _ E0) as [n L]. cbn iota in L.
      change (bs "main") with main_name in M.
      assert (G : forall fuel fns', load checked fuel [] defs start = Ret fns' s -> forall f, hm_get fns' f = last_def f defs).
      { intros fuel fns' Q. pose proof (@load_initialises checked fuel defs [] [] start T E0) as P.
        match type of P with context [load ?a ?b ?c ?d ?e] => change (load a b c d e = Ret fns' s) in Q; rewrite Q in P end. apply P. }
      destruct (last_def main_name defs) as [[ps body]|] eqn:Lm.
      * destruct M as (fns & E & R). apply runs_fuel in R. destruct R as [n2 R]. exists (max n n2). unfold call_main.
        destruct (L (max n n2) ltac:(lia)) as [fns' Q].
        match goal with |- context [load ?a ?b ?c ?d ?e] => change (load a b c d e = Ret fns' s) in Q; rewrite Q end. cbn [bind]. pose proof (G _ _ Q) as G'. rewrite G', Lm.
        rewrite (@interpret_ext checked fns' fns) by (intros f; now rewrite G', E). apply R. lia.
      * destruct M as [-> ->]. exists n. unfold call_main. destruct (L n ltac:(lia)) as [fns' Q].
        match goal with |- context [load ?a ?b ?c ?d ?e] => change (load a b c d e = Ret fns' s) in Q; rewrite Q end. cbn [bind]. pose proof (G _ _ Q) as G'.
        now rewrite G', Lm.
    + destruct (initialises_load I _ E0) as [n L]. exists n. unfold call_main. specialize (L n ltac:(lia)). cbn iota in L.
      match goal with |- context [load ?a ?b ?c ?d ?e] => change (load a b c d e = Pan s') in L; rewrite L end. reflexivity.
Qed.
(** A program without a function main never returns. *)
Theorem C107_no_main : forall checked defs fuel v s', (forall ps b, ~ In (EFun (bs "main") ps b) defs) -> Forall top_level defs ->
  call_main checked fuel (EProgram defs) <> Ret v s'.
Proof.
  intros checked defs fuel v s' N T H.
  assert (L : last_def (bs "main") defs = None).
  { clear H T. induction defs as [|d defs IH] using rev_ind; [reflexivity|]. rewrite last_def_snoc, IH.
    - destruct d; try reflexivity. cbn [defines]. destruct (list_eq_dec N.eq_dec (bs "main") f) as [<-|]; [|reflexivity]. exfalso. apply (N params d). apply in_or_app. right. now left.
    - intros ps b H. apply (N ps b). apply in_or_app. now left. }
  destruct (proj1 (@C107_program checked defs (Some v) s' T)) as [(s & _ & M)|[_ M]]; [now exists fuel| |discriminate].
  rewrite L in M. destruct M. discriminate.
Qed.
(** The second main is run, it calls the second f; the initialiser of the global ran the first f. *)
Definition c107_defs : list expr :=
  [EFun (bs "main") [] (EInt 0); EFun (bs "f") [] (EPrintln (EInt 1)); EGlobal (bs "g") (ECall (bs "f") []);
   EFun (bs "f") [] (EPrintln (EInt 2)); EFun (bs "main") [] (ECall (bs "f") [])].
Example C107_example : Forall top_level c107_defs /\ program_runs true c107_defs (Some (VInt 2)) (mk_state (mk_env [] []) [VInt 1; VInt 2]).
Proof.
  assert (T : Forall top_level c107_defs) by repeat constructor. split; [exact T|]. apply (C107_program true); [exact T|]. exists 9. vm_compute. reflexivity.
Qed.
Print Assumptions C107_program.
Print Assumptions C107_no_main.
