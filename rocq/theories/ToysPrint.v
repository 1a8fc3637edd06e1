(** Surface trees of toys and their tokens (not in /repo; part of the specification).  A text of a tree consists of its tokens,
    each followed by any white space.  Which trees have texts, and that the texts are in the strict grammar of ToysSyntax.v. *)
From Verif Require Import PropsF.
From Verif Require Import Base Text Closure JsonSpec Toys ToysSyntax ToysParse ToysParseSound ToysParseComplete.
From Coq Require Import ZArith Lia.
Set Implicit Arguments.
Local Open Scope string_scope.
Local Open Scope nat_scope.
Local Open Scope list_scope.

Definition show_int (z : Z) : list N := if (z <? 0)%Z then bs "-" ++ show_dec (Z.to_N (- z)) else show_dec (Z.to_N z).

Definition tokens := list (list N).
Inductive spells : tokens -> list N -> Prop :=
| sp_nil : spells [] []
| sp_cons : forall t ts w s, ws w -> spells ts s -> spells (t :: ts) (t ++ w ++ s).
Definition commas (l : list tokens) : tokens :=
  match l with [] => [] | s :: l => s ++ flat_map (fun t => bs "," :: t) l end.
(** Glued to the next token. *)
Definition glue (t : list N) (ts : tokens) : tokens := match ts with [] => [t] | u :: us => (t ++ u) :: us end.
Fixpoint toks (e : expr) : tokens :=
  match e with
  | EString v => [show_string v]
  | EInt z => [show_int z]
  | EBool b => [bool_text b]
  | EArray es => bs "[" :: commas (map toks es) ++ [bs "]"]
  | EBin o l r => toks l ++ op_text o :: toks r
  | ESymbol x => [x]
  | ECall f es => f :: bs "(" :: commas (map toks es) ++ [bs ")"]
  | ELabelled f ps => f :: bs "[" :: commas (map (fun p => fst p :: glue (bs "=") (toks (snd p))) ps) ++ [bs "]"]
  | EParen e => bs "(" :: toks e ++ [bs ")"]
  | _ => []
  end.
(** Statements; the for loop is not a node of expr. *)
Inductive surface :=
| SPrintln (e : expr)
| SWhile (c : expr) (b : surface)
| SFor (x : name) (e1 e2 : expr) (b : surface)
| SIf (c : expr) (a : surface)
| SIfElse (c : expr) (a b : surface)
| SAssign (x : name) (e : expr)
| SExpr (e : expr)
| SBlock (l : list surface).
Fixpoint tree (t : surface) : expr :=
  match t with
  | SPrintln e => EPrintln e
  | SWhile c b => EWhile c (tree b)
  | SFor x e1 e2 b => for_expr x e1 e2 (tree b)
  | SIf c a => EIf c (tree a) None
  | SIfElse c a b => EIf c (tree a) (Some (tree b))
  | SAssign x e => EAssign x e
  | SExpr e => e
  | SBlock l => EBlock (map tree l)
  end.
Definition cond_toks (k : string) (c : expr) : tokens := bs k :: bs "(" :: toks c ++ [bs ")"].
Fixpoint stoks (t : surface) : tokens :=
  match t with
  | SPrintln e => cond_toks "println" e ++ [bs ";"]
  | SWhile c b => cond_toks "while" c ++ stoks b
  | SFor x e1 e2 b => bs "for" :: bs "(" :: (x ++ bs " ") :: bs "in" :: toks e1 ++ bs " to" :: toks e2 ++ bs ")" :: stoks b
  | SIf c a => cond_toks "if" c ++ stoks a
  | SIfElse c a b => cond_toks "if" c ++ stoks a ++ bs "else" :: stoks b
  | SAssign x e => x :: bs "=" :: toks e ++ [bs ";"]
  | SExpr e => toks e ++ [bs ";"]
  | SBlock l => bs "{" :: flat_map stoks l ++ [bs "}"]
  end.
Inductive top := TGlobal (x : name) (e : expr) | TFun (f : name) (xs : list name) (l : list surface).
Definition top_tree (d : top) : expr := match d with TGlobal x e => EGlobal x e | TFun f xs l => EFun f xs (EBlock (map tree l)) end.
Definition top_toks (d : top) : tokens :=
  match d with
  | TGlobal x e => bs "global" :: x :: bs "=" :: toks e ++ [bs ";"]
  | TFun f xs l => bs "fn" :: f :: bs "(" :: commas (map (fun x => [x]) xs) ++ bs ")" :: bs "{" :: flat_map stoks l ++ [bs "}"]
  end.

(** Trees of expressions: an operand has no operator that binds weaker than the one above it, on the right also none that
    binds equally strong (parentheses are explicit in the tree); integers are in the range of i64; names are names. *)
Fixpoint fits (k : nat) (e : expr) : Prop :=
  match e with
  | EString _ | EBool _ => True
  | EInt z => (- 2 ^ 63 <= z <= 2 ^ 63 - 1)%Z
  | EArray es => fold_right (fun e P => fits 4 e /\ P) True es
  | EBin o l r => op_level o < k /\ fits (S (op_level o)) l /\ fits (op_level o) r
  | ESymbol x => word x /\ plain_name x
  | ECall f es => word f /\ fold_right (fun e P => fits 4 e /\ P) True es
  | ELabelled f ps => word f /\ ps <> [] /\ fold_right (fun p P => (word (fst p) /\ fits 4 (snd p)) /\ P) True ps
  | EParen e => fits 4 e
  | _ => False
  end.
(** The statement ends with an if without else. *)
Fixpoint open_ (t : surface) : bool :=
  match t with SIf _ _ => true | SIfElse _ _ b | SWhile _ b | SFor _ _ _ b => open_ b | _ => false end.
(** The name at the start of an expression, of a statement. *)
Fixpoint first_name (e : expr) : option name :=
  match e with ESymbol x | ECall x _ | ELabelled x _ => Some x | EBin _ l _ => first_name l | _ => None end.
Definition sfirst (t : surface) : option name := match t with SAssign x _ => Some x | SExpr e => first_name e | _ => None end.
Definition no_else (l : list surface) : Prop :=
  match l with [] => True | t :: _ => forall x, sfirst t = Some x -> ~ begins (bs "else") x end.
Fixpoint sfits (t : surface) : Prop :=
  match t with
  | SPrintln e => fits 4 e
  | SWhile c b => fits 4 c /\ sfits b
  | SFor x e1 e2 b => word x /\ fits 4 e1 /\ fits 4 e2 /\ sfits b
  | SIf c a => fits 4 c /\ sfits a
  | SIfElse c a b => fits 4 c /\ (sfits a /\ open_ a = false) /\ sfits b
  | SAssign x e => word x /\ fits 4 e
  | SExpr e => fits 4 e /\ no_keyword_call e
  | SBlock l => (fix all l := match l with [] => True | t :: r => sfits t /\ (open_ t = true -> no_else r) /\ all r end) l
  end.
Fixpoint all_fit (l : list surface) : Prop := match l with [] => True | t :: r => sfits t /\ (open_ t = true -> no_else r) /\ all_fit r end.
Definition tfits (d : top) : Prop :=
  match d with TGlobal x e => word x /\ fits 4 e | TFun f xs l => word f /\ Forall word xs /\ all_fit l end.

(** ** Texts are in the grammar *)
Lemma sp_app : forall a b s, spells (a ++ b) s -> exists s1 s2, s = s1 ++ s2 /\ spells a s1 /\ spells b s2.
Proof.
  induction a as [|t a IH]; intros b s H; [exists [], s; repeat split; [constructor|exact H]|]. cbn in H. inv H.
  match goal with H : spells (a ++ b) _ |- _ => apply IH in H; destruct H as (s1 & s2 & -> & K1 & K2) end.
  exists (t ++ w ++ s1), s2. split; [now rewrite <- !app_assoc|]. split; [now constructor|exact K2].
Qed.
Lemma sp_tok : forall t ts s, spells (t :: ts) s -> exists u r, s = u ++ r /\ lx t u /\ spells ts r.
Proof. intros t ts s H. inv H. exists (t ++ w), s0. split; [now rewrite <- app_assoc|]. split; [now exists w|assumption]. Qed.
Lemma sp_one : forall t s, spells [t] s -> lx t s.
Proof. intros t s H. inv H. match goal with H : spells [] _ |- _ => inv H end. exists w. now rewrite app_nil_r. Qed.
Ltac sp := repeat match goal with
  | H : spells [] _ |- _ => inv H
  | H : spells [_] _ |- _ => apply sp_one in H
  | H : spells (_ :: _) _ |- _ => apply sp_tok in H; destruct H as (? & ? & -> & ? & H)
  | H : spells (_ ++ _) _ |- _ => apply sp_app in H; destruct H as (? & ? & -> & ? & H)
  end.
Lemma lev_up : forall st j k e s, lev st j e s -> j <= k -> k <= 4 -> lev st k e s.
Proof. intros st j k e s G L. induction L as [|k L IH]; intros K; [exact G|]. apply l_up; [apply IH|]; lia. Qed.
Lemma lx_ws : forall t s a, lx t s -> ws a -> lx t (s ++ a).
Proof. intros t s a (w & -> & Hw) Ha. exists (w ++ a). split; [now rewrite <- app_assoc|]. now apply Forall_app. Qed.
(** White space behind an expression belongs to it. *)
Lemma lev_ws : forall st k e s a, lev st k e s -> ws a -> lev st k e (s ++ a).
Proof.
  intros st k e s a H Ha. induction H; rewrite <- ?app_assoc.
  - apply l_paren; auto. now apply lx_ws.
  - eapply l_int; [eassumption|]. now apply lx_ws.
  - eapply l_str; [eassumption|]. now apply lx_ws.
  - apply l_call; auto. now apply lx_ws.
  - apply l_labelled; auto. now apply lx_ws.
  - apply l_array; auto. now apply lx_ws.
  - apply l_bool. now apply lx_ws.
  - apply l_sym; auto. now apply lx_ws.
  - apply l_up; auto.
  - apply l_bin; auto.
Qed.
Lemma show_int_ok : forall z, (- 2 ^ 63 <= z <= 2 ^ 63 - 1)%Z -> int_text z (show_int z).
Proof.
  intros z Hz. assert (D : forall n, digits1 (show_dec n)).
  { intros n. destruct (show_dec_canonical n) as (A & B & _). split; [exact A|exact B]. }
  unfold show_int. destruct (Z.ltb_spec z 0) as [L|L].
  - exists (show_dec (Z.to_N (- z))). split; [apply D|]. split; [right; split; [reflexivity|rewrite show_dec_value; lia]|exact Hz].
  - exists (show_dec (Z.to_N z)). split; [apply D|]. split; [left; split; [reflexivity|rewrite show_dec_value; lia]|exact Hz].
Qed.
Lemma show_str_ok : forall v, g_string false false v (show_string v).
Proof.
  intros v. destruct (@show_string_ok false v ltac:(discriminate)) as (is & A & B & C & _). exists is. split; [|split; [exact B|split; [exact C|discriminate]]].
  eapply Forall_impl; [|exact A]. intros i. destruct i; cbn; try tauto; try (intuition discriminate).
Qed.
Lemma op_lt : forall o, op_level o < 4.
Proof. intros []; cbn; lia. Qed.
Lemma toks_ne : forall e k, fits k e -> exists t ts, toks e = t :: ts.
Proof. intros e. induction e; intros k H; try (destruct H; fail); cbn [toks]; eauto. destruct H as (_ & H & _). apply IHe1 in H. destruct H as (t & ts & ->). cbn. eauto. Qed.
Lemma args_ok : forall es, fold_right (fun e P => fits 4 e /\ P) True es -> (forall e, In e es -> fits 4 e -> forall s, spells (toks e) s -> lev true 4 e s) ->
  forall s, spells (commas (map toks es)) s -> args true es s.
Proof.
  intros [|e es] H G s S; [cbn in S; sp; apply a_none|]. destruct H as [He H]. cbn [map commas] in S. sp. apply a_some; [apply G; [now left|exact He|assumption]|].
  assert (G' : forall e, In e es -> fits 4 e -> forall s, spells (toks e) s -> lev true 4 e s) by (intros e' He'; apply G; now right). clear G He H0 e. rename x0 into s. revert s S.
  induction es as [|e es IHs]; intros s S; [cbn in S; sp; apply ma_end|]. destruct H as [He H]. cbn [map flat_map app] in S. sp. apply ma_more; [assumption|apply G'; [now left|exact He|assumption]|].
  apply IHs; [exact H| |exact S]. intros e' He'. apply G'. now right.
Qed.
Lemma params_ok : forall ps, ps <> [] -> fold_right (fun p P => (word (fst p) /\ fits 4 (snd p)) /\ P) True ps ->
  (forall p, In p ps -> fits 4 (snd p) -> forall s, spells (toks (snd p)) s -> lev true 4 (snd p) s) ->
  forall s, spells (commas (map (fun p => fst p :: glue (bs "=") (toks (snd p))) ps)) s -> params true ps s.
Proof.
  assert (Gl : forall x e k s, fits k e -> spells (x :: glue (bs "=") (toks e)) s -> exists n u, s = n ++ bs "=" ++ [] ++ u /\ lx x n /\ spells (toks e) u).
  { intros x e k s F S. destruct (toks_ne _ _ F) as (t & ts & E). rewrite E in S |- *. cbn [glue] in S. inv S. match goal with H : spells (_ :: ts) _ |- _ => inv H end.
    exists (x ++ w), (t ++ w0 ++ s). split; [now rewrite <- !app_assoc|]. split; [now exists w|now constructor]. }
  intros [|p ps] Hn H G; [congruence|clear Hn]. revert p H G. induction ps as [|q ps IHs]; intros [x e] [[Hx He] H] G s S; cbn [fst snd] in *.
  - cbn [map commas flat_map] in S. rewrite app_nil_r in S. cbn [fst snd] in S. destruct (Gl _ _ _ _ He S) as (n & u & -> & Hn & Hu). rewrite <- (app_nil_r u).
    apply p_some; [exact Hx|exact Hn|apply ws_nil|intros K; now destruct K|apply (G (x, e)); [now left|exact He|exact Hu]|apply mp_end].
  - cbn [map commas flat_map] in S. cbn [fst snd] in S. apply sp_app in S. destruct S as (s1 & s2 & -> & S1 & S2). destruct (Gl _ _ _ _ He S1) as (n & u & -> & Hn & Hu).
    rewrite <- !app_assoc. apply p_some; [exact Hx|exact Hn|apply ws_nil|intros K; now destruct K|apply (G (x, e)); [now left|exact He|exact Hu]|].
    cbn [app] in S2. apply sp_tok in S2. destruct S2 as (c & r & -> & Hc & S2). apply mp_more; [exact Hc|]. apply (IHs q H); [|exact S2]. intros p Hp. apply G. now right.
Qed.
Lemma toks_ok : forall e k s, k <= 4 -> fits k e -> spells (toks e) s -> lev true k e s.
Proof.
  fix IH 1. intros e k s Hk H S. destruct e as [v|z|b|es|o l r|x|f es|f ps|x|e|e|e|c b|c t e|es|x e|e|x e|f ps b|es]; try (destruct H; fail); cbn [toks] in S.
  - sp. apply (@lev_up true 0); [|lia|exact Hk]. apply l_str with (t := show_string v); [apply show_str_ok|assumption].
  - sp. apply (@lev_up true 0); [|lia|exact Hk]. apply l_int with (t := show_int z); [now apply show_int_ok|assumption].
  - sp. apply (@lev_up true 0); [|lia|exact Hk]. now apply l_bool.
  - sp. apply (@lev_up true 0); [|lia|exact Hk]. apply l_array; try assumption. eapply args_ok; [exact H| |eassumption]. clear - IH.
    induction es as [|e es IHs]; [intros e []|]. intros e' [<-|He'] F s S; [apply IH; [lia|exact F|exact S]|now apply IHs].
  - destruct H as (Ho & Hl & Hr). pose proof (op_lt o) as Lo. sp. apply (@lev_up true (1 + op_level o)); [|lia|exact Hk].
    apply l_bin; [apply IH; [lia|exact Hl|assumption]|reflexivity|assumption|apply IH; [lia|exact Hr|assumption]].
  - sp. destruct H as [Hx Hp]. apply (@lev_up true 0); [|lia|exact Hk]. apply l_sym; auto.
  - sp. destruct H as [Hf H]. apply (@lev_up true 0); [|lia|exact Hk]. apply l_call; try assumption. eapply args_ok; [exact H| |eassumption]. clear - IH.
    induction es as [|e es IHs]; [intros e []|]. intros e' [<-|He'] F s S; [apply IH; [lia|exact F|exact S]|now apply IHs].
  - sp. destruct H as (Hf & Hn & H). apply (@lev_up true 0); [|lia|exact Hk]. apply l_labelled; try assumption. eapply params_ok; [exact Hn|exact H| |eassumption]. clear - IH.
    induction ps as [|p ps IHs]; [intros p []|]. intros q [<-|Hq] F s S; [destruct p as [x e]; apply IH; [lia|exact F|exact S]|now apply IHs].
  - sp. apply (@lev_up true 0); [|lia|exact Hk]. apply l_paren; try assumption. apply IH; [lia|exact H|assumption].
Qed.
(** Only these trees have a text. *)
Lemma lev_fits : forall k e s, lev true k e s -> fits k e.
Proof.
  assert (Up : forall e k, fits k e -> fits (S k) e) by (intros [] k H; try exact H; destruct H as [H1 H2]; split; [lia|exact H2]).
  assert (G : (forall k e s, lev true k e s -> fits k e) /\ (forall es s, args true es s -> fold_right (fun e P => fits 4 e /\ P) True es) /\
    (forall es s, more_args true es s -> fold_right (fun e P => fits 4 e /\ P) True es) /\
    (forall ps s, params true ps s -> ps <> [] /\ fold_right (fun p P => (word (fst p) /\ fits 4 (snd p)) /\ P) True ps) /\
    (forall ps s, more_params true ps s -> fold_right (fun p P => (word (fst p) /\ fits 4 (snd p)) /\ P) True ps)).
  { apply (@lev_ind5 true (fun k e s _ => fits k e) (fun es s _ => fold_right (fun e P => fits 4 e /\ P) True es) (fun es s _ => fold_right (fun e P => fits 4 e /\ P) True es)
      (fun ps s _ => ps <> [] /\ fold_right (fun p P => (word (fst p) /\ fits 4 (snd p)) /\ P) True ps) (fun ps s _ => fold_right (fun p P => (word (fst p) /\ fits 4 (snd p)) /\ P) True ps));
      intros; cbn; auto; try tauto.
    - destruct i as (ds & _ & _ & R). exact R.
    - subst k. auto.
    - repeat split; auto. discriminate. }
  exact (proj1 G).
Qed.

(** ** Statements *)
Lemma begins_word : forall p x c r, Forall letter_ p -> ~ letter_ c -> begins p (x ++ c :: r) -> begins p x.
Proof.
  intros p. induction p as [|y p IH]; intros x c r F Hc [t E]; [now exists x|]. inversion F as [|? ? Fy Fp]. subst. destruct x as [|z x].
  - cbn in E. injection E as -> _. now destruct Hc.
  - cbn in E. injection E as -> E. destruct (IH x c r Fp Hc) as [u ->]; [now exists t|]. now exists u.
Qed.
Definition no_letter (l : list N) : Prop := exists c r, l = c :: r /\ ~ letter_ c.
Lemma else_letters : Forall letter_ (bs "else").
Proof. cbn. repeat constructor; unfold letter_; lia. Qed.
Lemma else_word : forall x w r, ws w -> no_letter r -> begins (bs "else") ((x ++ w) ++ r) -> begins (bs "else") x.
Proof.
  intros x w r Hw (c & u & -> & Hc) B. rewrite <- app_assoc in B. destruct w as [|d w]; [|inversion Hw as [|? ? Hd _]; subst; cbn [app] in B; eapply begins_word; [apply else_letters| |exact B]; cbn in Hd; unfold letter_; lia].
  eapply begins_word; [apply else_letters|exact Hc|exact B].
Qed.
Lemma hd_else : forall c t, c <> 101%N -> ~ begins (bs "else") (c :: t).
Proof. intros c t H [u E]. cbn in E. injection E as E _. congruence. Qed.
Lemma tok_no_letter : forall c t u r, ~ letter_ c -> lx (c :: t) u -> no_letter (u ++ r).
Proof. intros c t u r Hc (w & -> & _). exists c. cbn. eauto. Qed.
Lemma not_else_tok : forall c t u r, c <> 101%N -> lx (c :: t) u -> ~ begins (bs "else") (u ++ r).
Proof. intros c t u r Hc (w & -> & _). now apply hd_else. Qed.
Lemma not_begins : forall P Q, (~ P) -> P -> Q.
Proof. intros P Q A B. destruct (A B). Qed.
Lemma toks_else : forall e k s r, fits k e -> spells (toks e) s -> no_letter r -> begins (bs "else") (s ++ r) -> exists x, first_name e = Some x /\ begins (bs "else") x.
Proof.
  induction e; intros k s' r' H S Hr B; try (destruct H; fail); cbn [toks] in S; rewrite ?app_comm_cons in S.
  - sp. revert B. apply not_begins. eapply not_else_tok; [|eassumption]. discriminate.
  - sp. revert B. apply not_begins. destruct S as (w & -> & Hw). rewrite <- app_assoc. destruct (int_hd (w ++ r') (show_int_ok H)) as (d & u & E & Hd). rewrite E. apply hd_else.
    destruct Hd as [->|Hd]; [discriminate|unfold digit in Hd; lia].
  - sp. revert B. apply not_begins. destruct b; (eapply not_else_tok; [|exact S]; discriminate).
  - cbn [app] in S. sp. revert B. apply not_begins. rewrite <- app_assoc. eapply not_else_tok; [|eassumption]. discriminate.
  - sp. destruct H as (_ & Hl & _). rewrite <- !app_assoc in B. eapply IHe1; [exact Hl|eassumption| |exact B].
    destruct (op_text o) as [|d u] eqn:E; [destruct o; discriminate|]. eapply tok_no_letter; [|eassumption]. unfold letter_. destruct o; injection E as <- _; cbn; lia.
  - sp. exists x. split; [reflexivity|]. destruct S as (w & -> & Hw). eapply else_word; eassumption.
  - cbn [app] in S. apply sp_tok in S. destruct S as (n & q & -> & (w & -> & Hw) & S). sp. exists f. split; [reflexivity|]. rewrite <- app_assoc in B. eapply else_word; [exact Hw| |exact B].
    rewrite <- !app_assoc. eapply tok_no_letter; [|eassumption]. unfold letter_; cbn; lia.
  - cbn [app] in S. apply sp_tok in S. destruct S as (n & q & -> & (w & -> & Hw) & S). sp. exists f. split; [reflexivity|]. rewrite <- app_assoc in B. eapply else_word; [exact Hw| |exact B].
    rewrite <- !app_assoc. eapply tok_no_letter; [|eassumption]. unfold letter_; cbn; lia.
  - cbn [app] in S. sp. revert B. apply not_begins. rewrite <- app_assoc. eapply not_else_tok; [|eassumption]. discriminate.
Qed.
Lemma stm_else : forall t s r, sfits t -> spells (stoks t) s -> begins (bs "else") (s ++ r) -> exists x, sfirst t = Some x /\ begins (bs "else") x.
Proof.
  intros t s r H S B. destruct t as [e|c b|x e1 e2 b|c a|c a b|x e|e|l]; cbn [stoks] in S; unfold cond_toks in S; cbn [app] in S;
    try (apply sp_tok in S; destruct S as (n & q & -> & L & _); revert B; apply not_begins; rewrite <- app_assoc; eapply not_else_tok; [|exact L]; discriminate).
  - apply sp_tok in S. destruct S as (n & q & -> & (w & -> & Hw) & S). exists x. split; [reflexivity|]. sp. rewrite <- app_assoc in B. eapply else_word; [exact Hw| |exact B].
    rewrite <- app_assoc. eapply tok_no_letter; [|eassumption]. unfold letter_; cbn; lia.
  - sp. destruct H as [H _]. rewrite <- app_assoc in B. eapply toks_else; [exact H|eassumption| |exact B]. eapply tok_no_letter; [|eassumption]. unfold letter_; cbn; lia.
Qed.
Lemma stms_ok : forall l, all_fit l -> (forall t, In t l -> sfits t -> forall s, spells (stoks t) s -> stm true (open_ t) (tree t) s) ->
  forall s, spells (flat_map stoks l) s -> stms true (map tree l) s.
Proof.
  induction l as [|e l IH]; intros H G s S; [cbn in S; sp; apply ss_nil|]. destruct H as (He & Ho & H). cbn [flat_map] in S. sp. cbn [map]. apply ss_cons with (op := open_ e); [apply G; [now left|exact He|assumption]| |].
  - intros _ O B. specialize (Ho O). destruct l as [|e' l]; [cbn in S; sp; destruct B as [u B]; discriminate|]. cbn [flat_map] in S. sp. destruct H as (He' & _).
    match goal with H : spells (stoks e') _ |- _ => destruct (stm_else _ _ He' H B) as (y & E & Bx) end. exact (Ho y E Bx).
  - apply IH; [exact H| |exact S]. intros e' He'. apply G. now right.
Qed.
Lemma stoks_ok : forall t s, sfits t -> spells (stoks t) s -> stm true (open_ t) (tree t) s.
Proof.
  fix IH 1. intros t s H S. destruct t as [e|c b|x e1 e2 b|c a|c a b|x e|e|l]; cbn [stoks] in S; unfold cond_toks in S; cbn [app] in S; rewrite <- ?app_assoc in S; cbn [app] in S; cbn [tree open_].
  - sp. apply s_println; try assumption. eapply toks_ok; [|exact H|eassumption]. lia.
  - destruct H as [Hc Hb]. sp. apply s_while; try assumption; [eapply toks_ok; [|exact Hc|eassumption]; lia|now apply IH].
  - destruct H as (Hx & H1 & H2 & Hb). sp.
    match goal with H : lx (x ++ bs " ") ?n |- _ => assert (Ln : lx x n /\ spaced_off n); [destruct H as (w & -> & Hw)|clear H] end.
    { assert (W : ws (bs " " ++ w)) by (apply Forall_app; split; [|exact Hw]; repeat constructor; cbn; lia). rewrite <- app_assoc. split; [now exists (bs " " ++ w)|].
      exists x, (bs " " ++ w). split; [reflexivity|]. split; [exact W|discriminate]. }
    match goal with H : lx (bs " to") ?j |- _ => destruct H as (w & -> & Hw) end. change (bs " to" ++ w) with (bs " " ++ bs "to" ++ w).
    assert (W1 : ws (bs " ")) by (repeat constructor; cbn; lia).
    match goal with |- stm _ _ _ (?k ++ ?o ++ ?n ++ ?i ++ ?s1 ++ (bs " " ++ ?j) ++ ?s2) => replace (k ++ o ++ n ++ i ++ s1 ++ (bs " " ++ j) ++ s2) with (k ++ o ++ n ++ i ++ (s1 ++ bs " ") ++ j ++ s2) by now rewrite <- !app_assoc end.
    apply s_for; try assumption; try tauto.
    + apply lev_ws; [|exact W1]. eapply toks_ok; [|exact H1|eassumption]. lia.
    + intros _. match goal with |- spaced_off (?u ++ _) => exists u, (bs " ") end. split; [reflexivity|]. split; [exact W1|discriminate].
    + now exists w.
    + eapply toks_ok; [|exact H2|eassumption]. lia.
    + now apply IH.
  - destruct H as [Hc Ha]. sp. apply s_if with (op := open_ a); try assumption; [eapply toks_ok; [|exact Hc|eassumption]; lia|now apply IH].
  - destruct H as (Hc & [Ha Hn] & Hb). sp. apply s_ifelse with (op := open_ a); try assumption; [eapply toks_ok; [|exact Hc|eassumption]; lia|now apply IH|intros _; exact Hn|now apply IH].
  - destruct H as [Hx He]. sp. apply s_assign; try assumption. eapply toks_ok; [|exact He|eassumption]. lia.
  - destruct H as [He Hk]. sp. apply s_expr; try assumption; [|intros _; exact Hk]. eapply toks_ok; [|exact He|eassumption]. lia.
  - sp. apply s_block; try assumption. eapply stms_ok; [exact H| |eassumption]. clear - IH. induction l as [|e l IHs]; [intros e []|]. intros e' [<-|He'] F s S; [now apply IH|now apply IHs].
Qed.
Lemma names_toks : forall xs s, Forall word xs -> spells (commas (map (fun x => [x]) xs)) s -> names xs s.
Proof.
  intros [|x xs] s H S; [cbn in S; sp; apply n_none|]. inversion H as [|? ? Hx Hxs]. subst. cbn [map commas] in S. sp. apply n_some; [exact Hx|assumption|]. clear - S Hxs. revert S. match goal with |- spells _ ?u -> _ => generalize u end.
  induction Hxs as [|x xs Hx Hxs IH]; intros s S; [cbn in S; sp; apply mn_end|]. cbn [map flat_map app] in S. sp. apply mn_more; [assumption|exact Hx|assumption|now apply IH].
Qed.
Lemma top_ok : forall d s, tfits d -> spells (top_toks d) s -> def true (top_tree d) s.
Proof.
  intros [x e|f xs l] s H S; cbn [top_toks] in S; cbn [top_tree].
  - destruct H as [Hx He]. sp. apply d_global; try assumption. eapply toks_ok; [|exact He|eassumption]. lia.
  - destruct H as (Hf & Hxs & Hl). sp. apply d_fun; try assumption; [now apply names_toks|]. eapply stms_ok; [exact Hl| |eassumption]. intros t _ F s. now apply stoks_ok.
Qed.
Lemma tops_ok : forall ds s, Forall tfits ds -> spells (flat_map top_toks ds) s -> defs true (map top_tree ds) s.
Proof.
  intros ds s H. revert s. induction H as [|d ds Hd H IH]; intros s S; [cbn in S; sp; apply ds_nil|]. cbn [flat_map] in S. sp. cbn [map]. apply ds_cons; [now apply top_ok|now apply IH].
Qed.
