(** How long the toys parsers take: the calls of cached parser objects (CacheSim.v, CacheGrammars.v), and texts on which they double with every
    17 characters. *)
From Verif Require Import PropsX.
From Verif Require Import Base Core Comb Closure Runs ChainRules Text Json JsonSpec JsonFacts Calc Toys ToysParse ToysSyntax ToysParseSound ToysParseComplete CacheSim CacheGrammars.
From Coq Require Import ZArith.
Set Implicit Arguments.
Local Open Scope string_scope.
Local Open Scope nat_scope.
Local Open Scope list_scope.

(** The clock at the end of a run of a new object at offset 0 (parser_runner_impl.rs 11-14): how often a parser made by cache() was called. *)
Definition s_calls {A} (g : sobj A) (a : nat -> nat) (inp : list N) : nat := fst (snd (srun g a inp 0 (0, st0 g))).

(** ** The clock never goes back *)
Definition mono {A} (g : sobj A) : Prop := forall a inp off t s, t <= fst (snd (srun g a inp off (t, s))).
Lemma mo_prim : forall A (p : parser N A), mono (s_prim p).
Proof. intros A p a inp off t s. apply le_n. Qed.
Lemma mo_lift : forall A B (f : outcome N A -> list N -> nat -> outcome N B) g, mono g -> mono (s_lift f g).
Proof. intros A B f g H a inp off t. cbn [st s_lift]. intros s. specialize (H a inp off t s). cbn [s_lift srun]. destruct (srun g a inp off (t, s)) as [o s']. exact H. Qed.
Lemma mo_seq : forall A B C (k : A -> B -> C) g h, mono g -> mono h -> mono (s_seq k g h).
Proof.
  intros A B C k g h H1 H2 a inp off t [s1 s2]. specialize (H1 a inp off t s1). cbn [s_seq srun]. destruct (srun g a inp off (t, s1)) as [[x n|e c| |] [t1 s1']]; try exact H1.
  specialize (H2 a inp (off + n) t1 s2). destruct (srun h a inp (off + n) (t1, s2)) as [o [t2 s2']]. cbn [fst snd] in *. lia.
Qed.
Lemma mo_or : forall A (g h : sobj A), mono g -> mono h -> mono (s_or g h).
Proof.
  intros A g h H1 H2 a inp off t [s1 s2]. specialize (H1 a inp off t s1). cbn [s_or srun]. destruct (srun g a inp off (t, s1)) as [[x n|e c| |] [t1 s1']]; try exact H1.
  destruct c; cbn [negb]; [exact H1|]. specialize (H2 a inp off t1 s2). destruct (srun h a inp off (t1, s2)) as [o [t2 s2']]. cbn [fst snd] in *. lia.
Qed.
Lemma mo_loop : forall A (g : sobj A), mono g -> forall fuel rend a inp cur items all t s, t <= fst (snd (s_loop fuel g rend a inp cur items all t s)).
Proof.
  intros A g H. induction fuel as [|fuel IH]; intros rend a inp cur items all t s; cbn [s_loop]; [apply le_n|]. destruct (rep_stop rend (length items)); [apply le_n|].
  specialize (H a inp cur t s). destruct (srun g a inp cur (t, s)) as [[v n|e c| |] [t1 s1]]; try exact H. cbn [fst snd] in H. etransitivity; [exact H|apply IH].
Qed.
Lemma mo_rep : forall A (g : sobj A) r, mono g -> mono (s_rep g r).
Proof.
  intros A g r H a inp off t. cbn [st s_rep]. intros s. pose proof (H a inp off t s) as K. cbn [s_rep srun]. destruct (srun g a inp off (t, s)) as [[v n|e c| |] [t1 s1]]; try exact K.
  pose proof (mo_loop H (rep_fuel (rg_end r) inp off) (rg_end r) a inp (off + n) [v] n t1 s1) as L. destruct (s_loop _ g _ a inp (off + n) [v] n t1 s1) as [d [t' s']]. cbn [fst snd] in *. lia.
Qed.
Lemma mo_loop_sep : forall A B (g : sobj A) (h : sobj B), mono g -> mono h ->
  forall fuel rend a inp cur items all t s1 s2, t <= fst (snd (s_loop_sep fuel g h rend a inp cur items all t s1 s2)).
Proof.
  intros A B g h H1 H2. induction fuel as [|fuel IH]; intros rend a inp cur items all t s1 s2; cbn [s_loop_sep]; [apply le_n|]. destruct (rep_stop rend (length items)); [apply le_n|].
  pose proof (H2 a inp cur t s2) as K. destruct (srun h a inp cur (t, s2)) as [[x n|e c| |] [t1 s2']]; try exact K. cbn [fst snd] in K.
  pose proof (H1 a inp (cur + n) t1 s1) as L. destruct (srun g a inp (cur + n) (t1, s1)) as [[v m|e c| |] [t2 s1']]; cbn [fst snd] in *; try lia.
  etransitivity; [|apply IH]. lia.
Qed.
Lemma mo_rep_sep : forall A B (g : sobj A) r (h : sobj B), mono g -> mono h -> mono (s_rep_sep g r h).
Proof.
  intros A B g r h H1 H2 a inp off t [s1 s2]. pose proof (H1 a inp off t s1) as K. cbn [s_rep_sep srun]. destruct (srun g a inp off (t, s1)) as [[v n|e c| |] [t1 s1']]; try exact K.
  pose proof (mo_loop_sep H1 H2 (rep_fuel (rg_end r) inp off) (rg_end r) a inp (off + n) [v] n t1 s1' s2) as L.
  destruct (s_loop_sep _ g h _ a inp (off + n) [v] n t1 s1' s2) as [d [t' s']]. cbn [fst snd] in *. lia.
Qed.
Lemma mo_rest : forall A (g : sobj A) h, mono g -> mono h -> forall fuel x a inp off t s1 s2, t <= fst (snd (s_rest fuel g h x a inp off t s1 s2)).
Proof.
  intros A g h H1 H2. induction fuel as [|fuel IH]; intros x a inp off t s1 s2; cbn [s_rest]; [apply le_n|].
  pose proof (H2 a inp off t s2) as K. destruct (srun h a inp off (t, s2)) as [[f n|e c| |] [t1 s2']]; try exact K. cbn [fst snd] in K.
  pose proof (H1 a inp (off + n) t1 s1) as L. destruct (srun g a inp (off + n) (t1, s1)) as [[v m|e c| |] [t2 s1']]; cbn [fst snd] in *; try lia.
  specialize (IH (f x v) a inp (off + n + m) t2 s1' s2'). destruct (s_rest fuel g h (f x v) a inp (off + n + m) t2 s1' s2') as [r [t' s']]. cbn [fst snd] in *. lia.
Qed.
Lemma mo_chain : forall A (g : sobj A) h, mono g -> mono h -> mono (s_chain_left1 g h).
Proof.
  intros A g h H1 H2 a inp off t [s1 s2]. pose proof (H1 a inp off t s1) as K. cbn [s_chain_left1 srun]. destruct (srun g a inp off (t, s1)) as [[v n|e c| |] [t1 s1']]; try exact K.
  pose proof (mo_rest H1 H2 (chain_fuel inp (off + n)) v a inp (off + n) t1 s1' s2) as L. destruct (s_rest _ g h v a inp (off + n) t1 s1' s2) as [d [t' s']]. cbn [fst snd] in *. lia.
Qed.
Lemma mo_lazy : forall A (g : sobj A), mono g -> mono (s_lazy g).
Proof. intros A g H a inp off t s. specialize (H a inp off t (st0 g)). cbn [s_lazy srun]. destruct (srun g a inp off (t, st0 g)) as [o [t' s']]. exact H. Qed.
Lemma mo_cache : forall A (g : sobj A), mono g -> mono (s_cache g).
Proof.
  intros A g H a inp off t [m s]. cbn [s_cache srun]. destruct (m_find m (a t) (last_offset_or0 off)); [cbn; lia|].
  specialize (H a inp off (S t) s). destruct (srun g a inp off (S t, s)) as [o [t' s']]. cbn [fst snd] in *. lia.
Qed.
Ltac mo := repeat first [ assumption | apply mo_prim | apply mo_seq | apply mo_or | apply mo_rep_sep | apply mo_rep | apply mo_chain | apply mo_lazy | apply mo_cache | apply mo_lift ].

(** ** The least number of calls of a new object on a text, wherever the text stands in an input of length [k] *)
Section Costs.
Variable a : nat -> nat.
Variable k : nat.
Definition cost {A} (g : sobj A) (l : list N) (c : nat) : Prop := forall pre t, length (pre ++ l) = k -> t + c <= fst (snd (srun g a (pre ++ l) (length pre) (t, st0 g))).
(** A new object gives what [p] gives. *)
Definition as_new {A} (g : sobj A) (p : parser N A) : Prop := forall inp off t, length inp = k -> fst (srun g a inp off (t, st0 g)) = p inp off.
Lemma an_faith : forall A (g : sobj A) p, (forall inp, length inp = k -> Faith a inp false g p) -> as_new g p.
Proof.
  intros A g p H inp off t L. destruct (H inp L) as (F & V & H0 & _ & H2 & _). destruct (H2 off ltac:(discriminate) t (st0 g) H0) as (t' & s' & E & _). now rewrite E.
Qed.
Lemma co_zero : forall A (g : sobj A) l, mono g -> cost g l 0.
Proof. intros A g l H pre t _. rewrite Nat.add_0_r. apply H. Qed.
Lemma co_le : forall A (g : sobj A) l c d, cost g l c -> d <= c -> cost g l d.
Proof. intros A g l c d H L pre t E. specialize (H pre t E). lia. Qed.
Lemma co_lift : forall A B (f : outcome N A -> list N -> nat -> outcome N B) g l c, cost g l c -> cost (s_lift f g) l c.
Proof. intros A B f g l c H pre t E. specialize (H pre t E). cbn [s_lift srun st0 st]. destruct (srun g a (pre ++ l) (length pre) (t, st0 g)) as [o s']. exact H. Qed.
Lemma co_lazy : forall A (g : sobj A) l c, cost g l c -> cost (s_lazy g) l c.
Proof. intros A g l c H pre t E. specialize (H pre t E). cbn [s_lazy srun st0 st]. destruct (srun g a (pre ++ l) (length pre) (t, st0 g)) as [o [t' s']]. exact H. Qed.
Lemma co_cache : forall A (g : sobj A) l c, cost g l c -> cost (s_cache g) l (S c).
Proof.
  intros A g l c H pre t E. specialize (H pre (S t) E). cbn [s_cache srun st0 st m_find]. destruct (srun g a (pre ++ l) (length pre) (S t, st0 g)) as [o [t' s']]. cbn [fst snd] in *. lia.
Qed.
Lemma co_seq1 : forall A B C (f : A -> B -> C) g h l c, cost g l c -> mono h -> cost (s_seq f g h) l c.
Proof.
  intros A B C f g h l c H1 H2 pre t E. specialize (H1 pre t E). cbn [s_seq srun st0 st]. destruct (srun g a (pre ++ l) (length pre) (t, st0 g)) as [[x n|e d| |] [t1 s1']]; try exact H1.
  specialize (H2 a (pre ++ l) (length pre + n) t1 (st0 h)). destruct (srun h a (pre ++ l) (length pre + n) (t1, st0 h)) as [o [t2 s2']]. cbn [fst snd] in *. lia.
Qed.
Lemma co_seq : forall A B C (f : A -> B -> C) g h p s rest v c d, as_new g p -> acc p s rest v -> cost g (s ++ rest) c -> cost h rest d -> cost (s_seq f g h) (s ++ rest) (c + d).
Proof.
  intros A B C f g h p s rest v c d N H H1 H2 pre t E. specialize (H1 pre t E). specialize (N (pre ++ s ++ rest) (length pre) t E). rewrite (H pre) in N. cbn [s_seq srun st0 st].
  destruct (srun g a (pre ++ s ++ rest) (length pre) (t, st0 g)) as [o [t1 s1']]. cbn [fst snd] in N, H1. subst o.
  rewrite app_assoc in *. specialize (H2 (pre ++ s) t1 E). rewrite app_length in H2. destruct (srun h a ((pre ++ s) ++ rest) (length pre + length s) (t1, st0 h)) as [o [t2 s2']]. cbn [fst snd] in *. lia.
Qed.
Lemma co_or1 : forall A (g h : sobj A) l c, cost g l c -> mono h -> cost (s_or g h) l c.
Proof.
  intros A g h l c H1 H2 pre t E. specialize (H1 pre t E). cbn [s_or srun st0 st]. destruct (srun g a (pre ++ l) (length pre) (t, st0 g)) as [[x n|e d| |] [t1 s1']]; try exact H1.
  destruct d; cbn [negb]; [exact H1|]. specialize (H2 a (pre ++ l) (length pre) t1 (st0 h)). destruct (srun h a (pre ++ l) (length pre) (t1, st0 h)) as [o [t2 s2']]. cbn [fst snd] in *. lia.
Qed.
Lemma co_or : forall A (g h : sobj A) p l c d, as_new g p -> rej p l false -> cost g l c -> cost h l d -> cost (s_or g h) l (c + d).
Proof.
  intros A g h p l c d N H H1 H2 pre t E. specialize (H1 pre t E). specialize (N (pre ++ l) (length pre) t E). destruct (H pre) as [e Ee]. rewrite Ee in N. cbn [s_or srun st0 st].
  destruct (srun g a (pre ++ l) (length pre) (t, st0 g)) as [o [t1 s1']]. cbn [fst snd] in N, H1. subst o. cbn [negb].
  specialize (H2 pre t1 E). destruct (srun h a (pre ++ l) (length pre) (t1, st0 h)) as [o [t2 s2']]. cbn [fst snd] in *. lia.
Qed.
Lemma co_rep : forall A (g : sobj A) r l c, cost g l c -> mono g -> cost (s_rep g r) l c.
Proof.
  intros A g r l c H M pre t E. specialize (H pre t E). cbn [s_rep srun st0 st]. destruct (srun g a (pre ++ l) (length pre) (t, st0 g)) as [[v n|e d| |] [t1 s1]]; try exact H.
  pose proof (mo_loop M (rep_fuel (rg_end r) (pre ++ l) (length pre)) (rg_end r) a (pre ++ l) (length pre + n) [v] n t1 s1) as L. destruct (s_loop _ g _ a (pre ++ l) (length pre + n) [v] n t1 s1) as [o [t' s']]. cbn [fst snd] in *. lia.
Qed.
End Costs.

(** ** The texts: "{if(a)if(a)b;else" again and again *)
Fixpoint ladder (d : nat) : list N := match d with 0 => [] | S d' => bs "{if(a)if(a)b;else" ++ ladder d' end.
Lemma ladder_length : forall d, length (ladder d) = 17 * d.
Proof. induction d as [|d IH]; [reflexivity|]. cbn [ladder]. rewrite app_length, IH. cbn [bs length list_ascii_of_string map String.length]. cbn. lia. Qed.

Section Slow.
Variable nd : N -> bool.
Hypothesis nd_ascii : forall x, (x < 128)%N -> (nd x = true <-> digit x).
Notation lf := (line_fuel nd).

Lemma lev_a : lev true 4 (ESymbol (bs "a")) (bs "a") /\ lev true 4 (ESymbol (bs "b")) (bs "b").
Proof.
  split; (do 4 (apply l_up; [|lia]); apply l_sym; [|intros _; split; intros (t & E); discriminate E|exists []; split; [reflexivity|apply ws_nil]]);
    (eexists _, []; split; [reflexivity|]; split; [unfold letter_; cbn; lia|constructor]).
Qed.
Lemma lx_self : forall t, lx t t.
Proof. intros t. exists []. split; [now rewrite app_nil_r|apply ws_nil]. Qed.
Definition elses (d : nat) : list N := bs "else" ++ ladder d.
Definition if1 : expr := EIf (ESymbol (bs "a")) (ESymbol (bs "b")) None.
Definition if2 : expr := EIf (ESymbol (bs "a")) if1 None.
Lemma a_b : forall n d, 2 < n -> acc (lf n) (bs "b;") (elses d) (ESymbol (bs "b")).
Proof.
  intros n d L. assert (S0 : stm true false (ESymbol (bs "b")) (bs "b" ++ bs ";")).
  { apply s_expr; [apply lev_a|intros _ f E; discriminate E|apply lx_self]. }
  apply (proj1 (stm_ok nd nd_ascii) _ _ _ S0 n [] (elses d)); [cbn; lia|apply ws_nil|cbn; lia|discriminate].
Qed.
Notation head := (p_skip_right (p_skip_left (p_skip_left (p_skip_right (p_tag (bs "if")) t_space) lparen) (expression nd)) rparen).
Lemma a_head : forall rest, no_ws rest -> acc head (bs "if(a)") rest (ESymbol (bs "a")).
Proof. intros rest H. apply (@a_if_head nd nd_ascii (ESymbol (bs "a")) (bs "if") (bs "(") (bs "a") (bs ")") rest); try apply lx_self; [apply lev_a|exact H]. Qed.
(** No else: the line behind it fails. *)
Lemma a_no_else : forall n d, rej (lf n) (ladder d) false -> acc (p_opt (p_skip_left (t_tag (bs "else")) (lf n))) [] (elses d) None.
Proof.
  intros n d H. eapply a_opt_none. unfold elses. eapply r_skip_left2; [|exact H]. apply a_ttag0; [cbn; lia|apply lx_self|]. destruct d; [exact I|cbn; lia].
Qed.
Lemma a_ifs : forall n d s e, no_ws s -> s <> [] -> rej (lf n) (ladder d) false -> acc (lf n) s (elses d) e -> acc (lf (S n)) (bs "if(a)" ++ s) (elses d) (EIf (ESymbol (bs "a")) e None).
Proof.
  intros n d s e Hw Hs H1 H2. eapply (@a_if nd n (bs "if") (elses d) (bs "(a)" ++ s) (ESymbol (bs "a")) e None) with (a := []); try apply lx_self; [cbn; lia|cbn; lia| |reflexivity|apply ws_nil].
  replace (bs "if" ++ bs "(a)" ++ s) with ((bs "if(a)" ++ s) ++ []) by (rewrite app_nil_r; reflexivity). eapply a_and; [eapply a_and; [apply a_head|exact H2]|now apply a_no_else].
  destruct s; [congruence|exact Hw].
Qed.
Lemma a_if1 : forall n d, 2 < n -> rej (lf n) (ladder d) false -> acc (lf (S n)) (bs "if(a)b;") (elses d) if1.
Proof. intros n d L H. apply (@a_ifs n d (bs "b;")); [cbn; lia|discriminate|exact H|now apply a_b]. Qed.
Lemma a_if2 : forall n d, 2 < n -> rej (lf n) (ladder d) false -> rej (lf (S n)) (ladder d) false -> acc (lf (S (S n))) (bs "if(a)if(a)b;") (elses d) if2.
Proof. intros n d L H1 H2. apply (@a_ifs (S n) d (bs "if(a)b;")); [cbn; lia|discriminate|exact H2|now apply a_if1]. Qed.
(** What follows the ifs is no line: the word else, then a brace or nothing. *)
Definition brace (l : list N) : Prop := match l with [] => True | x :: _ => x = 123%N end.
Lemma brace_ladder : forall d, brace (ladder d).
Proof. intros [|d]; [exact I|reflexivity]. Qed.
Lemma brace_ne : forall c l, brace l -> c <> 123%N -> hd_ne c l.
Proof. intros c [|x l] H Hc; [exact I|]. cbn in *. congruence. Qed.
Lemma brace_ws : forall l, brace l -> no_ws l.
Proof. intros [|x l] H; [exact I|]. cbn in *. subst. lia. Qed.
Lemma brace_ident : forall l, brace l -> hd_not ident_char l.
Proof. intros [|x l] H; [exact I|]. cbn in *. now subst. Qed.
Lemma word_else : word (bs "else").
Proof. eexists _, _; split; [reflexivity|]; split; [now apply start_iff|]; repeat (apply Forall_cons; [now apply ichar_iff|]); apply Forall_nil. Qed.
Lemma r_op_brace : forall k l, brace l -> rej (opp k) l false.
Proof.
  intros k l H. assert (D : forall c, c <> 123%N -> hd_ne c l) by (intros c; now apply brace_ne). apply brace_ws in H.
  destruct k as [|[|[|k]]]; unfold opp; apply r_map_panic; change l with ([] ++ l).
  - apply r_or; apply r_tsym; try apply ws_nil; try assumption; apply D; cbn; lia.
  - apply r_tsym; try apply ws_nil; try assumption; apply D; cbn; lia.
  - apply r_or; apply r_tsym; try apply ws_nil; try assumption; apply D; cbn; lia.
  - apply r_spaced; [apply ws_nil|exact H|]. repeat apply r_or; try (eapply r_attempt); apply r_tag; apply D; cbn; lia.
Qed.
Lemma a_primary_else : forall p l, brace l -> acc (primary_of nd p) (bs "else") l (ESymbol (bs "else")).
Proof.
  intros p l H. pose proof (brace_ws _ H) as Hw. pose proof (brace_ident _ H) as Hi. unfold primary_of. apply a_name. apply a_or2.
  - change (bs "else" ++ l) with ([] ++ bs "else" ++ [] ++ l). repeat apply r_or.
    + apply r_paren; [apply ws_nil|cbn; lia|cbn; lia].
    + apply r_int; [exact nd_ascii|apply ws_nil|cbn; lia|]. cbn. unfold digit. lia.
    + apply r_strlit; [apply ws_nil|]. intros _. cbn. lia.
    + apply r_fcall2; try apply ws_nil; try assumption; [apply word_else|]. apply brace_ne; [exact H|lia].
    + apply r_lcall2; try apply ws_nil; try assumption; [apply word_else|]. apply brace_ne; [exact H|lia].
    + apply r_arr; [apply ws_nil|cbn; lia|cbn; lia].
    + apply r_boollit; [apply ws_nil|cbn; lia| |cbn; lia]. intros (t & E). discriminate E.
  - unfold identifier. apply a_name, a_map. apply (@a_ident (bs "else") [] [] l); try apply ws_nil; [apply word_else|exact Hw|exact Hi].
Qed.
Lemma a_levp_else : forall n k l, brace l -> acc (levp nd n k) (bs "else") l (ESymbol (bs "else")).
Proof.
  intros n k l H. induction k as [|k IH]; cbn [levp]; [now apply a_primary_else|]. apply a_name. rewrite <- (app_nil_r (bs "else")).
  eapply a_chain_left1; [exact IH|]. apply a_rest_nil. now apply r_op_brace.
Qed.
Lemma a_expression_else : forall l, brace l -> acc (expression nd) (bs "else") l (ESymbol (bs "else")).
Proof. intros l H pre. unfold expression. rewrite levp_expression. apply a_name. now apply a_levp_else. Qed.
Lemma r_else : forall n d, rej (lf (S n)) (elses d) false.
Proof.
  intros n d. cbn [line_fuel]. unfold line_of. apply r_name. apply r_spaced0; [cbn; lia|]. pose proof (brace_ladder d) as B.
  repeat apply r_or; [apply r_hd_println|apply r_lazy, r_hd_while|apply r_lazy, r_hd_if|apply r_lazy, r_hd_for| | |]; try (cbn; lia).
  - apply (@r_assign_word nd nd_ascii (bs "else") [] (ladder d)); [apply word_else|apply ws_nil|now apply brace_ws|now apply brace_ident|]. left. apply brace_ne; [exact B|lia].
  - unfold expression_line. apply r_name. eapply r_attempt. eapply r_skip_right2; [now apply a_expression_else|]. change (ladder d) with ([] ++ ladder d).
    apply r_ttag; [apply ws_nil|now apply brace_ws|]. apply brace_ne; [exact B|discriminate].
  - unfold block. apply r_name, r_spaced0; [cbn; lia|]. apply r_map, r_surround1. change (elses d) with ([] ++ elses d). apply r_ttag; [apply ws_nil|cbn; lia|cbn; lia].
Qed.
Lemma a_lines2 : forall n d, 2 < n -> rej (lf n) (ladder d) false -> rej (lf (S n)) (ladder d) false ->
  acc (p_many0 (p_lazy (fun _ => lf (S (S n))))) (bs "if(a)if(a)b;") (elses d) [if2].
Proof.
  intros n d L H1 H2. eapply a_many0; [|apply r_lazy, r_else]. rewrite <- (app_nil_r (bs "if(a)if(a)b;")).
  eapply chain_cons; [|discriminate|apply chain_nil]. apply a_lazy. now apply a_if2.
Qed.
Lemma r_block : forall n d, 2 < n -> rej (lf n) (ladder d) false -> rej (lf (S n)) (ladder d) false -> rej (block (lf (S (S n)))) (ladder (S d)) false.
Proof.
  intros n d L H1 H2. unfold block. apply r_name, r_spaced0; [cbn; lia|]. apply r_map. unfold p_surround. cbn [ladder].
  change (bs "{if(a)if(a)b;else" ++ ladder d) with (bs "{" ++ bs "if(a)if(a)b;" ++ elses d). eapply r_skip_left2; [apply a_ttag0; [cbn; lia|apply lx_self|cbn; lia]|].
  eapply r_skip_right2; [now apply a_lines2|]. change (elses d) with ([] ++ elses d). apply r_ttag; [apply ws_nil|cbn; lia|cbn; lia].
Qed.
Lemma r_ladder : forall d n, 3 * d + 2 < n -> rej (lf n) (ladder d) false.
Proof.
  induction d as [|d IH]; intros n L; (destruct n as [|n]; [lia|]).
  - apply (@r_line nd nd_ascii n [] []); [apply ws_nil|exact I].
  - destruct n as [|[|n]]; try lia. cbn [line_fuel]. unfold line_of. apply r_name. apply r_spaced0; [cbn; lia|].
    apply r_or; [apply (@r_line6 nd nd_ascii (S (S n)) 123%N); [cbn; lia|unfold letter_; cbn; lia|cbn; lia]|]. apply r_block; [lia|apply IH; lia|apply IH; lia].
Qed.

(** ** The calls *)
Section Calls.
Variable a : nat -> nat.
Variable k : nat.
Notation sl := (s_line_fuel nd k).
Lemma mo_spaced : forall A (g : sobj A), mono g -> mono (s_spaced g).
Proof. intros A g H. unfold s_spaced, s_skip_left, s_skip_right. mo. Qed.
Lemma mo_expression_fuel : forall n, mono (s_expression_fuel nd n).
Proof.
  induction n as [|n IH]; cbn [s_expression_fuel]; [apply mo_prim|].
  unfold s_expression_of, s_comparative, s_additive, s_moditive, s_multitive, s_primary_of, s_paren_expr, s_function_call, s_labelled_call, s_array_literal, s_integer, s_bool_literal, s_string_literal, s_identifier, s_param, s_many1_sep, s_surround, s_many0_sep, s_spaced, s_and, s_skip_left, s_skip_right, s_map, s_attempt, s_name. mo.
Qed.
Lemma mo_expression : mono (s_expression nd k).
Proof. apply mo_expression_fuel. Qed.
Ltac mx := pose proof mo_expression; unfold s_println, s_while, s_for, s_for_params, s_if, s_assignment, s_expression_line, s_block, s_opt, s_surround, s_many0, s_spaced, s_and, s_skip_left, s_skip_right, s_map, s_attempt, s_name; mo.
Lemma mo_block : forall g, mono g -> mono (s_block g).
Proof. intros g H. mx. Qed.
Lemma mo_line_of : forall g, mono g -> mono (s_line_of nd k g).
Proof. intros g H. unfold s_line_of. mx. Qed.
Lemma mo_line_fuel : forall n, mono (sl n).
Proof. induction n as [|n IH]; [apply mo_prim|]. now apply mo_line_of. Qed.

(** New objects give what the parsers give. *)
Lemma an_prim : forall A (p : parser N A), as_new a k (s_prim p) p.
Proof. intros A p inp off t _. reflexivity. Qed.
Lemma an_line : forall n, as_new a k (sl n) (lf n).
Proof. intros n. apply an_faith. intros inp <-. apply f_line_fuel. Qed.
Lemma an_two : forall n, as_new a k (s_or (s_println nd k) (s_lazy (s_while nd k (sl n)))) (p_or (println nd) (p_lazy (fun _ => while_p nd (lf n)))).
Proof.
  intros n. apply an_faith. intros inp <-. pose proof (f_line_fuel nd a inp n) as H.
  assert (L : Free a inp (s_lazy (s_line_fuel nd (length inp) n)) (p_lazy (fun _ => lf n))) by exact (free_lazy H).
  assert (E : Free a inp (s_lazy (s_expression nd (length inp))) (p_lazy (fun _ => expression nd))) by exact (free_lazy (f_expression nd a inp)).
  assert (Pr : forall A (q : parser N A), Free a inp (s_prim q) q) by (intros; apply free_prim).
  apply faith_or.
  - apply faith_cache, faith_name, faith_attempt, f_spaced, free_faith, free_map, free_skip_right; [|apply Pr]. apply free_skip_left; [apply Pr|]. apply free_surround; [apply Pr|exact E|apply Pr].
  - apply faith_lazy, faith_cache, faith_name, faith_attempt, f_spaced, free_faith, free_map, free_and; [|exact L]. apply free_skip_left; [apply Pr|]. apply free_surround; [apply Pr|exact E|apply Pr].
Qed.
Lemma an_if_head : forall n, as_new a k
  (s_and (s_skip_right (s_skip_left (s_skip_left (s_prim (p_skip_right (p_tag (bs "if")) t_space)) (s_prim lparen)) (s_expression nd k)) (s_prim rparen)) (sl n)) (p_and head (lf n)).
Proof.
  intros n. apply an_faith. intros inp <-. pose proof (f_line_fuel nd a inp n) as H. apply faith_and; [|exact H]. apply faith_skip_right; [|apply faith_prim].
  apply faith_skip_left; [|apply f_expression]. apply faith_skip_left; apply faith_prim.
Qed.
Lemma an_head : as_new a k (s_skip_right (s_skip_left (s_skip_left (s_prim (p_skip_right (p_tag (bs "if")) t_space)) (s_prim lparen)) (s_expression nd k)) (s_prim rparen)) head.
Proof. apply an_faith. intros inp <-. apply faith_skip_right; [|apply faith_prim]. apply faith_skip_left; [|apply f_expression]. apply faith_skip_left; apply faith_prim. Qed.
Lemma an_six : forall n, as_new a k
  (s_or (s_or (s_or (s_or (s_or (s_println nd k) (s_lazy (s_while nd k (sl n)))) (s_lazy (s_if nd k (sl n)))) (s_lazy (s_for nd k (sl n)))) (s_assignment nd k)) (s_expression_line nd k))
  (p_or (p_or (p_or (p_or (p_or (println nd) (p_lazy (fun _ => while_p nd (lf n)))) (p_lazy (fun _ => if_p nd (lf n)))) (p_lazy (fun _ => for_p nd (lf n)))) (assignment nd)) (expression_line nd)).
Proof.
  intros n. apply an_faith. intros inp <-. pose proof (f_line_fuel nd a inp n) as H.
  assert (L : Free a inp (s_lazy (s_line_fuel nd (length inp) n)) (p_lazy (fun _ => lf n))) by exact (free_lazy H).
  assert (E : Free a inp (s_lazy (s_expression nd (length inp))) (p_lazy (fun _ => expression nd))) by exact (free_lazy (f_expression nd a inp)).
  assert (Pr : forall A (q : parser N A), Free a inp (s_prim q) q) by (intros; apply free_prim). pose proof (f_expression nd a inp) as X.
  assert (Pf : forall A (q : parser N A), Faith a inp false (s_prim q) q) by (intros; apply faith_prim).
  repeat apply faith_or.
  - apply faith_cache, faith_name, faith_attempt, f_spaced, free_faith, free_map, free_skip_right; [|apply Pr]. apply free_skip_left; [apply Pr|]. apply free_surround; [apply Pr|exact E|apply Pr].
  - apply faith_lazy, faith_cache, faith_name, faith_attempt, f_spaced, free_faith, free_map, free_and; [|exact L]. apply free_skip_left; [apply Pr|]. apply free_surround; [apply Pr|exact E|apply Pr].
  - apply faith_lazy, faith_cache, faith_name, faith_attempt, f_spaced, faith_map, faith_and.
    + apply faith_and; [|exact H]. apply faith_skip_right; [|apply Pf]. apply faith_skip_left; [|exact X]. apply faith_skip_left; apply Pf.
    + apply faith_opt, faith_skip_left; [apply Pf|exact H].
  - apply faith_lazy, faith_cache, faith_name, faith_attempt, f_spaced, faith_map, faith_and; [|now apply free_faith]. apply faith_skip_left; [apply Pf|].
    apply faith_skip_right; [apply faith_skip_right; [|apply Pf]|apply Pf]. apply faith_and; [|exact X]. apply faith_skip_right; [|apply Pf]. apply faith_and; [|exact X].
    apply faith_skip_right; [apply faith_skip_left; apply Pf|apply Pf].
  - apply faith_cache, faith_name, faith_attempt, f_spaced, faith_map, faith_skip_right; [|apply Pf]. apply faith_and; [apply faith_skip_right; apply Pf|exact X].
  - apply faith_cache, faith_name, faith_attempt, faith_skip_right; [exact X|apply Pf].
Qed.

Lemma co_prefix : forall A B C (f : A -> B -> C) p (h : sobj B) s rest v d, acc p s rest v -> cost a k h rest d -> cost a k (s_seq f (s_prim p) h) (s ++ rest) d.
Proof. intros A B C f p h s rest v d H1 H2. apply (@co_seq a k _ _ _ f (s_prim p) h p s rest v 0 d); [apply an_prim|exact H1|apply co_zero, mo_prim|exact H2]. Qed.
Lemma co_spaced : forall A (g : sobj A) l c, no_ws l -> cost a k g l c -> cost a k (s_spaced g) l c.
Proof.
  intros A g l c Hw H. unfold s_spaced. apply co_seq1; [|apply mo_prim]. change l with ([] ++ l). eapply co_prefix; [|exact H]. now apply a_tspace; [apply ws_nil|].
Qed.
(** An if whose else line fails. *)
Lemma co_if : forall n d s e c1 c2, no_ws s -> s <> [] -> acc (lf n) s (elses d) e -> cost a k (sl n) (s ++ elses d) c1 -> cost a k (sl n) (ladder d) c2 ->
  cost a k (sl (S n)) ((bs "if(a)" ++ s) ++ elses d) (c1 + c2).
Proof.
  intros n d s e c1 c2 Hw Hs H1 C1 C2. pose proof (mo_line_fuel n) as M. cbn [s_line_fuel]. unfold s_line_of. eapply co_le; [apply co_cache|apply le_S, le_n].
  apply co_lift, co_spaced; [cbn; lia|]. do 4 (apply co_or1; [|mx]). change (c1 + c2) with (0 + (c1 + c2)).
  eapply co_or; [apply an_two| |apply co_zero; mx|].
  - apply r_or; [apply r_hd_println|apply r_lazy, r_hd_while]; cbn; lia.
  - apply co_lazy. eapply co_le; [apply co_cache|apply le_S, le_n]. apply co_lift, co_lift, co_spaced; [cbn; lia|]. apply co_lift.
    eapply co_seq; [apply an_if_head|eapply a_and; [apply a_head|exact H1]| |].
    + destruct s; [congruence|exact Hw].
    + rewrite <- app_assoc. change c1 with (0 + c1). eapply co_seq; [apply an_head|apply a_head|apply co_zero; mx|exact C1]. destruct s; [congruence|exact Hw].
    + apply co_or1; [|apply mo_prim]. apply co_lift, co_lift. unfold elses. eapply co_prefix; [|exact C2]. apply a_ttag0; [cbn; lia|apply lx_self|]. apply brace_ws, brace_ladder.
Qed.
Lemma co_block : forall n d c, 2 < n -> rej (lf n) (ladder d) false -> cost a k (sl n) (ladder d) c -> cost a k (sl (S n)) (ladder d) c -> cost a k (s_block (sl (S (S n)))) (ladder (S d)) (c + c).
Proof.
  intros n d c L R C1 C2. pose proof (mo_line_fuel (S (S n))) as M. unfold s_block. eapply co_le; [apply co_cache|apply le_S, le_n].
  apply co_lift, co_spaced; [cbn; lia|]. apply co_lift. cbn [ladder]. change (bs "{if(a)if(a)b;else" ++ ladder d) with (bs "{" ++ (bs "if(a)" ++ bs "if(a)b;") ++ elses d).
  eapply co_prefix; [apply a_ttag0; [cbn; lia|apply lx_self|cbn; lia]|]. apply co_seq1; [|apply mo_prim]. apply co_rep; [|mx]. apply co_lazy.
  eapply co_if; [cbn; lia|discriminate|now apply a_if1| |exact C2]. change (bs "if(a)b;" ++ elses d) with ((bs "if(a)" ++ bs "b;") ++ elses d). change c with (0 + c).
  eapply co_if; [cbn; lia|discriminate|now apply a_b|apply co_zero, mo_line_fuel|exact C1].
Qed.
Lemma co_one : forall n l, cost a k (sl (S n)) l 1.
Proof. intros n l. pose proof (mo_line_fuel n) as M. cbn [s_line_fuel]. unfold s_line_of. apply co_cache, co_zero. mx. Qed.
Lemma co_ladder : forall d n, 3 * d + 2 < n -> cost a k (sl n) (ladder d) (2 ^ d).
Proof.
  induction d as [|d IH]; intros n L; (destruct n as [|n]; [lia|]); [apply co_one|]. pose proof (mo_line_fuel n) as M. cbn [s_line_fuel]. unfold s_line_of.
  - destruct n as [|[|n]]; try lia. eapply co_le; [apply co_cache|apply le_S, le_n]. apply co_lift, co_spaced; [cbn; lia|]. change (2 ^ S d) with (0 + 2 ^ S d).
    eapply co_or; [apply an_six|apply (@r_line6 nd nd_ascii (S (S n)) 123%N); [cbn; lia|unfold letter_; cbn; lia|cbn; lia]|apply co_zero; mx|].
    replace (2 ^ S d) with (2 ^ d + 2 ^ d) by (cbn [Nat.pow]; lia). apply co_block; [lia|apply r_ladder; lia|apply IH; lia|apply IH; lia].
Qed.
End Calls.

(** ** The public parsers *)
Lemma lines_calls : forall a d, 2 ^ d <= s_calls (s_lines nd (length (ladder d))) a (ladder d).
Proof.
  intros a d. assert (C : cost a (length (ladder d)) (s_lines nd (length (ladder d))) (ladder d) (2 ^ d)).
  { unfold s_lines. do 2 (apply co_seq1; [|apply mo_prim]). apply co_rep; [|apply mo_line_fuel]. destruct d as [|d].
    - apply co_one.
    - apply co_ladder; rewrite ladder_length; lia. }
  apply (C [] 0). reflexivity.
Qed.
Definition slow (d : nat) : list N := bs "fn f()" ++ ladder d.
Lemma slow_length : forall d, length (slow d) = 6 + 17 * d.
Proof. intros d. unfold slow. rewrite app_length, ladder_length. reflexivity. Qed.
Lemma a_fn : forall l, no_ws l -> acc (p_and (p_skip_right (p_skip_left (p_skip_left (p_skip_left t_space (p_tag (bs "fn"))) t_space) ident) t_space)
  (p_surround lparen (p_many0_sep ident comma) rparen)) (bs "fn f()") l (bs "f", []).
Proof.
  intros l Hl. change (bs "fn f()") with (((((([] ++ bs "fn") ++ bs " ") ++ bs "f") ++ [])) ++ (bs "(" ++ [] ++ bs ")")).
  eapply a_and; [eapply a_skip_right; [eapply a_skip_left; [eapply a_skip_left; [eapply a_skip_left|]|]|]|].
  - apply a_tspace; [apply ws_nil|cbn; lia].
  - apply a_tag.
  - apply a_tspace; [repeat constructor; cbn; lia|cbn; lia].
  - apply (@a_ident (bs "f") [] []); try apply ws_nil; [|cbn; lia|reflexivity]. eexists _, []; split; [reflexivity|]; split; [now apply start_iff|constructor].
  - apply a_tspace; [apply ws_nil|cbn; lia].
  - eapply a_surround.
    + apply a_ttag0; [cbn; lia|apply lx_self|cbn; lia].
    + eapply a_repeat_sep_none. apply (@r_ident [] (bs ")" ++ l)); [apply ws_nil|cbn; lia|reflexivity].
    + apply a_ttag0; [cbn; lia|apply lx_self|exact Hl].
Qed.
Lemma program_calls : forall a d, 2 ^ d <= s_calls (s_program nd (length (slow d))) a (slow d).
Proof.
  intros a d. assert (C : cost a (length (slow d)) (s_program nd (length (slow d))) (slow d) (2 ^ d)).
  { unfold s_program, s_skip_left. change (slow d) with ([] ++ slow d) at 3. eapply co_prefix; [apply a_tspace; [apply ws_nil|cbn; lia]|]. apply co_lift.
    pose proof (mo_line_fuel (length (slow d)) (S (length (slow d)))) as M. pose proof (@mo_expression (length (slow d))) as X.
    assert (G : mono (s_global_variable_definition nd (length (slow d)))).
    { unfold s_global_variable_definition, s_spaced, s_and, s_skip_left, s_skip_right, s_map, s_name. mo. }
    assert (F : mono (s_function_definition nd (length (slow d)))).
    { unfold s_function_definition. apply mo_cache, mo_lift. apply mo_spaced, mo_lift, mo_seq; [apply mo_prim|]. exact (mo_block 0 M). }
    apply co_rep; [|unfold s_top_level_definition, s_name; mo]. apply co_lift. change (2 ^ d) with (0 + 2 ^ d). eapply co_or; [|apply r_name, r_spaced0|apply co_zero, G|].
    - apply an_faith. intros inp E. rewrite <- E. apply faith_cache, faith_name, f_spaced, faith_map, faith_skip_right; [|apply faith_prim]. apply faith_and; [apply faith_prim|apply f_expression].
    - cbn. lia.
    - apply r_map, r_skip_right1, r_and1, r_skip_right1, r_skip_left1. apply (@r_ttag _ _ []); [apply ws_nil|cbn; lia|cbn; lia].
    - unfold s_function_definition. eapply co_le; [apply co_cache|apply le_S, le_n]. apply co_lift, co_spaced; [cbn; lia|]. apply co_lift. unfold slow at 3.
      eapply co_prefix; [apply a_fn, brace_ws, brace_ladder|]. unfold s_line. rewrite slow_length. destruct d as [|d].
      + unfold s_block. apply co_cache, co_zero. rewrite slow_length in M. apply mo_lift, mo_spaced, mo_lift, mo_seq; [apply mo_prim|]. apply mo_seq; [|apply mo_prim]. apply mo_rep, mo_lazy, M.
      + replace (2 ^ S d) with (2 ^ d + 2 ^ d) by (cbn [Nat.pow]; lia). replace (S (6 + 17 * S d)) with (S (S (22 + 17 * d))) by lia.
        apply co_block; [lia|apply r_ladder; lia|apply co_ladder; lia|apply co_ladder; lia]. }
  apply (C [] 0). reflexivity.
Qed.
End Slow.
