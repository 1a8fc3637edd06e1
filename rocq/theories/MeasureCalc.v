(** The calculator with the nesting of its calls: parser/examples/calculator.rs as in Calc.v, over the combinators of Measure.v. *)
From Verif Require Import Base Core Comb Closure Hoare Text Agree Json JsonFacts Calc CalcSpec CalcFacts Measure MeasureJson.
Set Implicit Arguments.
Local Open Scope string_scope.
Local Open Scope nat_scope.
Local Open Scope list_scope.

Section Grammar.
Variable D : Type.
Variable nd : N -> bool.
Variable dec : list N -> D + unit.
(** calculator.rs 38-40, 142-147; [m_id]: map(Rc::new). *)
Definition mc_space : mparser unit := m_discard (m_many0 (m_elm_of [32; 9; 13; 10]%N)).
Definition mc_value : mparser (cexpr D) := m_id (m_map (m_map_res (m_leaf (p_regex (find_decimal nd))) dec) (@CValue D)).
(** calculator.rs 131-140. *)
Definition mc_primary0 (expr : mparser (cexpr D)) : mparser (cexpr D) :=
  m_or
    (m_id (m_map
      (m_surround (m_and (m_and mc_space (m_elm_ref (chr "("))) mc_space) (m_lazy expr)
        (m_and (m_and mc_space (m_elm_ref (chr ")"))) mc_space))
      (@CParen D)))
    mc_value.
(** calculator.rs 120-129. *)
Definition mc_unary (primary : mparser (cexpr D)) : mparser (cexpr D) :=
  m_id (m_map_panic (m_and (m_or (m_elm_ref (chr "+")) (m_elm_ref (chr "-"))) (m_lazy primary))
    (fun '(c, e) => if (c =? chr "-")%N then Some (CMinus e) else if (c =? chr "+")%N then Some (CPlus e) else None)).
Definition mc_step (primary expr : mparser (cexpr D)) : mparser (cexpr D) := m_or (mc_unary primary) (mc_primary0 expr).
(** calculator.rs 97-104 and 109-116. *)
Definition mc_mul_op : mparser (cexpr D -> cexpr D -> cexpr D) :=
  m_map_panic (m_skip_right (m_skip_left mc_space (m_or (m_elm_ref (chr "*")) (m_elm_ref (chr "/")))) mc_space)
    (fun c => if (c =? chr "*")%N then Some (@CMultiply D) else if (c =? chr "/")%N then Some (@CDivide D) else None).
Definition mc_add_op : mparser (cexpr D -> cexpr D -> cexpr D) :=
  m_map_panic (m_skip_right (m_skip_left mc_space (m_or (m_elm_ref (chr "+")) (m_elm_ref (chr "-")))) mc_space)
    (fun c => if (c =? chr "+")%N then Some (@CAdd D) else if (c =? chr "-")%N then Some (@CSub D) else None).
(** calculator.rs 96-118, 42-44. *)
Definition mc_multitive (primary : mparser (cexpr D)) : mparser (cexpr D) := m_chain_left1 primary mc_mul_op.
Definition mc_additive (primary : mparser (cexpr D)) : mparser (cexpr D) := m_chain_left1 (mc_multitive primary) mc_add_op.
(** calculator.rs 121 and 134, 162-164. *)
Fixpoint mc_primary (fuel : nat) : mparser (cexpr D) :=
  match fuel with
  | 0 => m_leaf p_diverge
  | S fuel' => mc_step (mc_primary fuel') (mc_additive (mc_primary fuel'))
  end.
Definition mc_calculator : mparser (cexpr D) := fun inp off => m_skip_right (mc_additive (mc_primary (S (length inp)))) (m_leaf p_end) inp off.

(** ** The outcomes are those of Calc.v *)
Ltac er := repeat first
  [ assumption | apply er_leaf | match goal with |- erases (m_id _) _ => apply er_id end | apply er_map | apply er_map_panic | apply er_map_res | apply er_discard | apply er_lazy
  | apply er_and | apply er_skip_left | apply er_skip_right | apply er_surround | apply er_or | apply er_many0 | apply er_chain_left1 ].
Lemma er_cspace : erases mc_space c_space.
Proof. unfold mc_space, c_space, p_elm_of, p_elm_of_set, m_elm_of. er. Qed.
Lemma er_mul_op : erases mc_mul_op (@mul_op D).
Proof. pose proof er_cspace. unfold mc_mul_op, mul_op. er. Qed.
Lemma er_add_op : erases mc_add_op (@add_op D).
Proof. pose proof er_cspace. unfold mc_add_op, add_op. er. Qed.
Lemma er_multitive : forall g p, erases g p -> erases (mc_multitive g) (multitive p).
Proof. intros g p H. pose proof er_mul_op. unfold mc_multitive, multitive. er. Qed.
Lemma er_additive : forall g p, erases g p -> erases (mc_additive g) (additive p).
Proof. intros g p H. pose proof er_add_op. pose proof (er_multitive H). unfold mc_additive, additive. er. Qed.
Lemma er_step : forall g p h q, erases g p -> erases h q -> erases (mc_step g h) (primary_step nd dec p q).
Proof. intros g p h q H1 H2. pose proof er_cspace. unfold mc_step, primary_step, mc_unary, unary, mc_primary0, primary0, mc_value, c_value. er. Qed.
Lemma er_primary : forall n, erases (mc_primary n) (primary_fuel nd dec n).
Proof. induction n as [|n IH]; [apply er_leaf|]. apply er_step; [exact IH|now apply er_additive]. Qed.
Lemma er_calculator : erases mc_calculator (calculator nd dec).
Proof.
  intros inp off. unfold mc_calculator, calculator, calculator_fuel. apply er_skip_right; [apply er_additive, er_primary|apply er_leaf].
Qed.
End Grammar.

(** ** Every operator of a chain nests two closures deeper *)
(** [sp]: any measure of the values that an operator raises by at most one over its left operand. *)
Lemma rest_deep : forall A (sp : A -> nat) (g : mparser A) h,
  (forall inp off f n, fst (h inp off) = Success f n -> forall x y, sp (f x y) <= S (sp x)) ->
  forall fuel x inp off v n, fst (m_rest fuel g h x inp off) = Success v n -> 2 * sp v <= 2 * sp x + hgt (snd (m_rest fuel g h x inp off)).
Proof.
  intros A sp g h Hs. induction fuel as [|fuel IH]; intros x inp off v n; cbn [m_rest]; [discriminate|]. unfold m_or. pose proof (Hs inp off) as H1.
  destruct (h inp off) as [[f n1|e c| |] m]; cbn [fst snd] in H1 |- *; [|destruct c; cbn [fst snd m_leaf]; [discriminate|]|discriminate..].
  - specialize (H1 f n1 eq_refl). destruct (g inp (off + n1)) as [[y n2|e c| |] m2].
    + specialize (IH (f x y) inp (off + n1 + n2)). destruct (m_rest fuel g h (f x y) inp (off + n1 + n2)) as [[w k|e c| |] m3]; cbn [advance_success add_commit fst snd]; try discriminate.
      * cbn [fst snd] in *. intros E. inv E. specialize (IH v k eq_refl). specialize (H1 x y). cbn. lia.
      * destruct (negb (n1 =? 0)), c; cbn; try discriminate. intros E. inv E. lia.
    + cbn [advance_success add_commit]. destruct (negb (n1 =? 0)), c; cbn; try discriminate. intros E. inv E. lia.
    + discriminate.
    + discriminate.
  - cbn. intros E. inv E. lia.
Qed.
Lemma chain_deep : forall A (sp : A -> nat) (g : mparser A) h,
  (forall inp off f n, fst (h inp off) = Success f n -> forall x y, sp (f x y) <= S (sp x)) ->
  forall inp off, (forall x n, fst (g inp off) = Success x n -> sp x = 0) ->
  forall v n, fst (m_chain_left1 g h inp off) = Success v n -> 2 * sp v < hgt (snd (m_chain_left1 g h inp off)).
Proof.
  intros A sp g h Hs inp off Hg v n. unfold m_chain_left1. destruct (g inp off) as [[x k|e c| |] m]; cbn [fst snd] in *; try discriminate.
  specialize (Hg x k eq_refl). pose proof (@rest_deep A sp g h Hs (chain_fuel inp (off + k)) x inp (off + k)) as R.
  destruct (m_rest (chain_fuel inp (off + k)) g h x inp (off + k)) as [[w j|e c| |] m2]; cbn [fst snd advance_success add_commit] in *; try discriminate.
  intros E. inv E. specialize (R v j eq_refl). cbn. lia.
Qed.

(** ** At most so many closures for every element of the text *)
Local Notation step_height := 20.
Definition tall {A} (n K : nat) (g : mparser A) : Prop := forall inp off, off <= length inp -> length inp - off < n ->
  hgt (snd (g inp off)) <= step_height * (length inp - off) + K.
Lemma ta_flat : forall A n k (g : mparser A), flat k g -> tall n k g.
Proof. intros A n k g H inp off _ _. specialize (H inp off). lia. Qed.
Lemma ta_le : forall A n k K (g : mparser A), tall n k g -> k <= K -> tall n K g.
Proof. intros A n k K g H L inp off H1 H2. specialize (H inp off H1 H2). lia. Qed.
Lemma ta_one : forall A B (k : parser N A -> parser N B) n K g, tall n K g -> tall n (S K) (m_one k g).
Proof. intros A B k n K g H inp off H1 H2. specialize (H inp off H1 H2). unfold m_one. destruct (g inp off) as [o m]. cbn [snd up hgt] in *. lia. Qed.
Lemma ta_or : forall A n K L (g h : mparser A), tall n K g -> tall n L h -> tall n (S (Nat.max K L)) (m_or g h).
Proof.
  intros A n K L g h H1 H2 inp off E1 E2. specialize (H1 inp off E1 E2). specialize (H2 inp off E1 E2). unfold m_or. destruct (g inp off) as [o m]. cbn [snd] in H1.
  destruct o as [x k|e [|]| |]; cbn [snd up hgt]; try lia. destruct (h inp off) as [o2 m2]. cbn [snd up both hgt] in *. lia.
Qed.
Lemma ta_two_flat : forall A B C (k : parser N A -> parser N B -> parser N C) n K L g h, tall n K g -> flat L h -> tall n (S (Nat.max K L)) (m_two k g h).
Proof.
  intros A B C k n K L g h H1 H2 inp off L1 L2. specialize (H1 inp off L1 L2). unfold m_two. destruct (g inp off) as [o m]. cbn [snd] in H1.
  destruct o as [x d|e c| |]; cbn [snd up hgt]; try lia. specialize (H2 inp (off + d)). destruct (h inp (off + d)) as [o2 m2]. cbn [snd up both hgt] in *. lia.
Qed.
(** After a parser that consumes, the recursion has [step_height] closures more. *)
Lemma ta_two_S : forall A B C (k : parser N A -> parser N B -> parser N C) n K L g h p, erases g p -> consumes p ->
  flat K g -> tall n (step_height + L) h -> tall (S n) (S (Nat.max K L)) (m_two k g h).
Proof.
  intros A B C k n K L g h p E T H1 H2 inp off L1 L2. specialize (H1 inp off). specialize (E inp off). unfold m_two. destruct (g inp off) as [o m]. cbn [fst snd] in *.
  destruct o as [x d|e c| |]; cbn [snd up hgt]; try lia. symmetry in E. destruct (T inp off x d E) as [B1 B2].
  specialize (H2 inp (off + d) B2 ltac:(lia)). destruct (h inp (off + d)) as [o2 m2]. cbn [snd up both hgt] in *. lia.
Qed.
Lemma ta_rest : forall A n K (g : mparser A) h p op, erases g p -> erases h op -> takes n p (fun _ => True) -> takes n op (fun s => s <> []) ->
  tall n K g -> flat K h -> forall fuel x inp off, off <= length inp -> length inp - off < n ->
  hgt (snd (m_rest fuel g h x inp off)) <= step_height * (length inp - off) + S (S (S K)).
Proof.
  intros A n K g h p op E1 E2 T1 T2 H1 H2. induction fuel as [|fuel IH]; intros x inp off L1 L2; cbn [m_rest]; [cbn; lia|].
  assert (G : hgt (snd ((fun inp off =>
        let '(o, m) := h inp off in
        match o with
        | Success f n1 =>
            let '(o2, m2) := g inp (off + n1) in
            match o2 with
            | Success y n2 =>
                let '(r, m3) := m_rest fuel g h (f x y) inp (off + n1 + n2) in
                (advance_success n1 (add_commit (negb (n1 =? 0)) (advance_success n2 r)), up (both (both m m2) m3))
            | Failure e c => (advance_success n1 (add_commit (negb (n1 =? 0)) (Failure e c)), up (both m m2))
            | Panic => (Panic, up (both m m2))
            | Diverge => (Diverge, up (both m m2))
            end
        | Failure e c => (Failure e c, up m)
        | Panic => (Panic, up m)
        | Diverge => (Diverge, up m)
        end) inp off)) <= step_height * (length inp - off) + S (S K)).
  { cbv beta. specialize (E2 inp off). specialize (H2 inp off). destruct (h inp off) as [o m]. cbn [fst snd] in *. symmetry in E2.
    destruct o as [f n1|e c| |]; cbn [snd up hgt]; try lia. destruct (T2 inp off f n1 L1 L2 E2) as [B1 B2].
    assert (n1 <> 0) by (intros ->; apply B2; reflexivity).
    specialize (E1 inp (off + n1)). specialize (H1 inp (off + n1) B1 ltac:(lia)). destruct (g inp (off + n1)) as [o2 m2]. cbn [fst snd] in *. symmetry in E1.
    destruct o2 as [y n2|e c| |]; cbn [snd up both hgt]; try (lia). destruct (T1 inp (off + n1) y n2 B1 ltac:(lia) E1) as [B3 _].
    specialize (IH (f x y) inp (off + n1 + n2) B3 ltac:(lia)). destruct (m_rest fuel g h (f x y) inp (off + n1 + n2)) as [r m3]. cbn [fst snd up both hgt] in *. lia. }
  unfold m_or. cbv beta in G |- *. match type of G with hgt (snd ?t) <= _ => destruct t as [o m] end. cbn [snd] in G.
  destruct o as [y k|e [|]| |]; cbn [snd up both hgt m_leaf]; lia.
Qed.
Lemma ta_chain : forall A n K (g : mparser A) h p op, erases g p -> erases h op -> takes n p (fun _ => True) -> takes n op (fun s => s <> []) ->
  tall n K g -> flat K h -> tall n (4 + K) (m_chain_left1 g h).
Proof.
  intros A n K g h p op E1 E2 T1 T2 H1 H2 inp off L1 L2. unfold m_chain_left1. pose proof (E1 inp off) as E. pose proof (H1 inp off L1 L2) as H. destruct (g inp off) as [o m].
  cbn [fst snd] in *. symmetry in E. destruct o as [x d|e c| |]; cbn [snd up hgt]; try lia. destruct (T1 inp off x d L1 L2 E) as [B1 _].
  pose proof (@ta_rest A n K g h p op E1 E2 T1 T2 H1 H2 (chain_fuel inp (off + d)) x inp (off + d) B1 ltac:(lia)) as R.
  destruct (m_rest _ g h x inp (off + d)) as [r m2]. cbn [snd up both hgt] in *. lia.
Qed.

Section Heights.
Variable D : Type.
Variable nd : N -> bool.
Variable dec : list N -> D + unit.
Hypothesis nd_ascii : forall x, (x < 128)%N -> (nd x = true <-> digit x).
Hypothesis dec_ascii : forall s x d, In x s -> dec s = inl d -> (x < 128)%N.
Notation prim := (mc_primary nd dec).
Ltac fl := repeat first [ apply fl_leaf | apply fl_opt | apply fl_or | apply fl_rep0 | apply fl_two | apply fl_one | exact I | assumption ].

Lemma fl_cspace : flat 4 mc_space.
Proof. eapply fl_le; [unfold mc_space; fl|]. cbn. lia. Qed.
Lemma fl_mul_op : flat 7 (@mc_mul_op D).
Proof. pose proof fl_cspace. eapply fl_le; [unfold mc_mul_op, m_skip_right, m_skip_left; fl|]. cbn. lia. Qed.
Lemma fl_add_op : flat 7 (@mc_add_op D).
Proof. pose proof fl_cspace. eapply fl_le; [unfold mc_add_op, m_skip_right, m_skip_left; fl|]. cbn. lia. Qed.
Lemma fl_paren : forall c, flat 6 (m_and (m_and mc_space (m_elm_ref c)) mc_space).
Proof. intros c. pose proof fl_cspace. eapply fl_le; [unfold m_and; fl|]. cbn. lia. Qed.
Lemma takes_mul_op : forall n, takes n (@mul_op D) (fun s => s <> []).
Proof. intros n. eapply takes_hoare; [unfold mul_op; eapply h_cop; reflexivity|]. cbv beta. intros f s (a & b & c & -> & _). apply cop_ne. Qed.
Lemma takes_add_op : forall n, takes n (@add_op D) (fun s => s <> []).
Proof. intros n. eapply takes_hoare; [unfold add_op; eapply h_cop; reflexivity|]. cbv beta. intros f s (a & b & c & -> & _). apply cop_ne. Qed.
Lemma takes_primary : forall n m, n <= m -> takes n (primary_fuel nd dec m) (fun _ => True).
Proof.
  intros n m L inp off v k H1 H2 E. rewrite (@ag_primary D nd dec n m L) in E by exact H2.
  destruct (h_success (@h_primary_safe D nd dec nd_ascii dec_ascii n) H1 E) as [B1 B2]. now split.
Qed.
Lemma takes_multitive : forall n m, n <= m -> takes n (multitive (primary_fuel nd dec m)) (fun _ => True).
Proof.
  intros n m L inp off v k H1 H2 E. unfold multitive in E. rewrite (ag_chain_left1 _ (@ag_primary D nd dec n m L)) in E by exact H2.
  destruct (h_success (h_multitive (@h_primary_safe D nd dec nd_ascii dec_ascii n)) H1 E) as [B1 B2]. now split.
Qed.
Lemma ta_additive : forall n m K, n <= m -> 7 <= K -> tall n K (prim m) -> tall n (8 + K) (mc_additive (prim m)).
Proof.
  intros n m K L LK H. unfold mc_additive. apply (@ta_chain _ n (4 + K) _ _ (multitive (primary_fuel nd dec m)) (@add_op D)).
  - apply er_multitive, er_primary.
  - apply er_add_op.
  - now apply takes_multitive.
  - apply takes_add_op.
  - unfold mc_multitive. apply (@ta_chain _ n K _ _ (primary_fuel nd dec m) (@mul_op D)); [apply er_primary|apply er_mul_op|now apply takes_primary|apply takes_mul_op|exact H|].
    eapply fl_le; [apply fl_mul_op|lia].
  - eapply fl_le; [apply fl_add_op|lia].
Qed.
Lemma ta_primary : forall n m, n <= m -> tall n 11 (prim m).
Proof.
  induction n as [|n IH]; intros m L; [intros inp off _ H; lia|]. destruct m as [|m]; [lia|]. cbn [mc_primary]. specialize (IH m ltac:(lia)).
  pose proof (@ta_additive n m 11 ltac:(lia) ltac:(lia) IH) as HA. unfold mc_step. eapply ta_le; [apply ta_or|].
  - unfold mc_unary. apply ta_one, ta_one. eapply (@ta_two_S _ _ _ (@p_and N N (cexpr D)) n 2 0).
    + apply er_or; apply er_leaf.
    + apply consumes_sign.
    + eapply fl_le; [apply fl_or; apply fl_leaf|]. cbn. lia.
    + eapply ta_le; [apply ta_one, IH|]. lia.
  - unfold mc_primary0. apply ta_or.
    + apply ta_one, ta_one. unfold m_surround. eapply (@ta_two_S _ _ _ (@p_skip_left N _ (cexpr D)) n 6 1).
      * apply er_and; [apply er_and; [apply er_cspace|apply er_leaf]|apply er_cspace].
      * apply consumes_paren.
      * apply fl_paren.
      * eapply ta_le; [eapply ta_two_flat; [apply ta_one, HA|apply fl_paren]|]. lia.
    + apply ta_flat with (k := 4). eapply fl_le; [unfold mc_value; fl|]. lia.
  - cbn. lia.
Qed.
Lemma calculator_height : forall inp, hgt (snd (mc_calculator nd dec inp 0)) <= step_height * length inp + 20.
Proof.
  intros inp. pose proof (@ta_primary (S (length inp)) (S (length inp)) (le_n _)) as H.
  pose proof (@ta_additive (S (length inp)) (S (length inp)) 11 (le_n _) ltac:(lia) H) as HA. unfold mc_calculator.
  assert (K : tall (S (length inp)) 20 (m_skip_right (mc_additive (mc_primary nd dec (S (length inp)))) (m_leaf p_end))).
  { eapply ta_le; [eapply ta_two_flat; [exact HA|apply fl_leaf]|]. cbn. lia. }
  specialize (K inp 0 ltac:(lia) ltac:(lia)). now rewrite Nat.sub_0_r in K.
Qed.

(** ** A lower bound: the additions and subtractions of the topmost sum *)
Fixpoint summands (e : cexpr D) : nat := match e with CAdd l _ | CSub l _ => S (summands l) | _ => 0 end.
Lemma term_summands : forall e s, g_term dec e s -> summands e = 0.
Proof. intros e s H. destruct H as [e s H|l r s a b t|l r s a b t]; [destruct H; reflexivity|reflexivity..]. Qed.
Lemma calculator_deep : forall inp e n, calculator nd dec inp 0 = Success e n -> 2 * summands e < hgt (snd (mc_calculator nd dec inp 0)).
Proof.
  intros inp e n H. rewrite <- (er_calculator nd dec inp 0) in H. unfold mc_calculator, m_skip_right, m_two in *.
  pose proof (er_multitive (er_primary nd dec (S (length inp)))) as EM.
  assert (Z : forall x k, fst (mc_multitive (mc_primary nd dec (S (length inp))) inp 0) = Success x k -> summands x = 0).
  { intros x k E. rewrite (EM inp 0) in E. unfold multitive in E. rewrite (ag_chain_left1 _ (@ag_primary D nd dec _ _ (le_n (S (length inp))))) in E by lia.
    destruct (h_success (h_multitive (@h_primary_safe D nd dec nd_ascii dec_ascii (S (length inp)))) (Nat.le_0_l _) E) as [_ B]. eapply term_summands, B. }
  pose proof (@chain_deep (cexpr D) summands (mc_multitive (mc_primary nd dec (S (length inp)))) (@mc_add_op D)) as C.
  unfold mc_additive in *. assert (HO : forall inp off f n, fst (@mc_add_op D inp off) = Success f n -> forall x y, summands (f x y) <= S (summands x)).
  { intros i o f k E x y. rewrite (@er_add_op D i o) in E. unfold add_op, p_map_panic in E.
    match type of E with match ?t with _ => _ end = _ => destruct t as [c j|e0 c| |] end; try discriminate. destruct (c =? chr "+")%N; [inv E; apply le_n|].
    destruct (c =? chr "-")%N; [inv E; apply le_n|discriminate]. }
  specialize (C HO inp 0 Z). destruct (m_chain_left1 _ _ inp 0) as [[x k|e0 c| |] m]; cbn [fst snd m_leaf p_skip_right] in *; try discriminate.
  specialize (C x k eq_refl). destruct (p_end inp (0 + k)) as [u j|e0 c| |]; cbn [advance_success add_commit] in H; try discriminate.
  inv H. cbn. lia.
Qed.
End Heights.
