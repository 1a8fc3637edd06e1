(** How many closures a run of the calculator calls: at most so many for every element of the text.  White space before something that is not
    there is read again by the next parser that looks for something else; every run of white space is read at most so often before it is consumed. *)
From Verif Require Import Base Core Comb Closure RepFacts Hoare Runs Text Agree Json JsonSpec JsonFacts Calc CalcSpec CalcFacts Measure MeasureJson MeasureCount MeasureCalc.
Set Implicit Arguments.
Local Open Scope string_scope.
Local Open Scope nat_scope.
Local Open Scope list_scope.

(** The white space at the beginning of a text, and of what is left of the input. *)
Fixpoint lead (l : list N) : nat := match l with [] => 0 | x :: l' => if wsp x then S (lead l') else 0 end.
Definition gap (inp : list N) (off : nat) : nat := lead (skipn off inp).
Lemma lead_le : forall l, lead l <= length l.
Proof. induction l as [|x l IH]; cbn [lead length]; [lia|]. destruct (wsp x); lia. Qed.
Lemma gap_le : forall inp off, gap inp off <= length inp - off.
Proof. intros inp off. unfold gap. rewrite <- skipn_length. apply lead_le. Qed.
Lemma lead_app : forall s r, ws s -> no_ws r -> lead (s ++ r) = length s.
Proof.
  induction s as [|x s IH]; intros r H1 H2; cbn [app lead length].
  - destruct r as [|y r]; [reflexivity|]. cbn [lead]. destruct (wsp y) eqn:E; [|reflexivity]. apply wsp_is in E. now destruct H2.
  - pose proof (Forall_inv H1) as Wx. apply wsp_is in Wx. rewrite Wx, IH; [reflexivity|exact (Forall_inv_tail H1)|exact H2].
Qed.
Lemma cs_ok : forall inp off, off <= length inp -> fst (mc_space inp off) = Success tt (gap inp off) /\ cnt (snd (mc_space inp off)) <= 2 * gap inp off + 4.
Proof.
  intros inp off L. destruct (ws_split (skipn off inp)) as (s & r & E & H1 & H2). pose proof (@a_space s r H1 H2 (firstn off inp)) as A. rewrite <- E, firstn_skipn, firstn_length, Nat.min_l in A by exact L.
  rewrite <- (er_space inp off) in A. change mj_space with mc_space in A. unfold gap. rewrite E, lead_app by assumption. split; [exact A|].
  pose proof (@li_space (S (length inp - off)) inp off L ltac:(lia)) as C. change mj_space with mc_space in C. rewrite A in C. exact C.
Qed.

(** Something between white space: the white space is consumed with it, and read if it is not there. *)
Definition spaced {A} (K : nat) (h : mparser A) : Prop := forall inp off, off <= length inp ->
  match fst (h inp off) with
  | Success _ n => off + n <= length inp /\ gap inp off < n /\ cnt (snd (h inp off)) <= 2 * n + K
  | Failure _ _ => cnt (snd (h inp off)) <= 2 * gap inp off + K
  | _ => cnt (snd (h inp off)) <= 2 * (length inp - off) + K
  end.
(** What is read after the end of what is consumed: at most [c] times the white space there. *)
Definition linx {A} (n a b c : nat) (g : mparser A) : Prop := forall inp off, off <= length inp -> length inp - off < n ->
  match fst (g inp off) with
  | Success _ k => off + k <= length inp /\ cnt (snd (g inp off)) <= a * k + b + c * gap inp (off + k)
  | _ => cnt (snd (g inp off)) <= a * (length inp - off) + b
  end.

Lemma rest_count : forall A n a b c K (g : mparser A) h, linx n a b c g -> spaced K h -> c + 4 + K + b <= a ->
  forall fuel x inp off, off <= length inp -> length inp - off < n ->
  match fst (m_rest fuel g h x inp off) with
  | Success _ k => off + k <= length inp /\ cnt (snd (m_rest fuel g h x inp off)) + c * gap inp off <= a * k + (K + 3) + (c + 2) * gap inp (off + k)
  | _ => cnt (snd (m_rest fuel g h x inp off)) + c * gap inp off <= a * (length inp - off) + (K + 3)
  end.
Proof.
  intros A n a b c K g h HG HH Ha. induction fuel as [|fuel IH]; intros x inp off L1 L2; cbn [m_rest].
  - cbn [fst snd cnt]. pose proof (gap_le inp off). assert (c * gap inp off <= a * (length inp - off)) by (apply Nat.mul_le_mono; lia). lia.
  - pose proof (gap_le inp off) as GL. assert (G1 : (c + 2) * gap inp off <= a * (length inp - off)) by (apply Nat.mul_le_mono; lia).
    unfold m_or. specialize (HH inp off L1). destruct (h inp off) as [[f n1|e [|]| |] m]; cbn [fst snd] in *.
    + destruct HH as (B1 & B2 & B3). specialize (HG inp (off + n1) B1 ltac:(lia)). destruct (g inp (off + n1)) as [[y n2|e s| |] m2]; cbn [fst snd] in *.
      * destruct HG as [B4 B5]. specialize (IH (f x y) inp (off + n1 + n2) B4 ltac:(lia)). replace (n1 =? 0) with false by (symmetry; apply Nat.eqb_neq; lia).
        assert (G2 : c * gap inp off + (2 * n1 + K) + b + 2 <= a * n1) by nia.
        destruct (m_rest fuel g h (f x y) inp (off + n1 + n2)) as [[w k|e s| |] m3]; cbn [fst snd advance_success add_commit negb cs_or up both cnt] in *.
        { destruct IH as [B6 B7]. replace (off + (k + n2 + n1)) with (off + n1 + n2 + k) by lia. split; [lia|]. nia. }
        all: assert (a * n1 + a * n2 + a * (length inp - (off + n1 + n2)) = a * (length inp - off)) by (rewrite <- !Nat.mul_add_distr_l; f_equal; lia).
        { destruct s; cbn [cs_or orb fst snd up both cnt] in *; nia. }
        all: nia.
      * replace (n1 =? 0) with false by (symmetry; apply Nat.eqb_neq; lia). assert (G2 : c * gap inp off + (2 * n1 + K) + b + 2 <= a * n1) by nia.
        assert (a * n1 + a * (length inp - (off + n1)) = a * (length inp - off)) by (rewrite <- !Nat.mul_add_distr_l; f_equal; lia).
        cbn [advance_success add_commit negb]. destruct s; cbn [cs_or orb fst snd up both cnt] in *; nia.
      * assert (G2 : c * gap inp off + (2 * n1 + K) + b + 2 <= a * n1) by nia.
        assert (a * n1 + a * (length inp - (off + n1)) = a * (length inp - off)) by (rewrite <- !Nat.mul_add_distr_l; f_equal; lia). cbn [fst snd up both cnt]. nia.
      * assert (G2 : c * gap inp off + (2 * n1 + K) + b + 2 <= a * n1) by nia.
        assert (a * n1 + a * (length inp - (off + n1)) = a * (length inp - off)) by (rewrite <- !Nat.mul_add_distr_l; f_equal; lia). cbn [fst snd up both cnt]. nia.
    + cbn [up cnt]. lia.
    + cbn [m_leaf fst snd p_successful up both cnt]. rewrite Nat.add_0_r. split; [lia|]. nia.
    + cbn [up cnt]. nia.
    + cbn [up cnt]. nia.
Qed.
Lemma chain_count : forall A n a b c K (g : mparser A) h, linx n a b c g -> spaced K h -> c + 4 + K + b <= a -> linx n a (b + K + 4) (c + 2) (m_chain_left1 g h).
Proof.
  intros A n a b c K g h HG HH Ha inp off L1 L2. pose proof (HG inp off L1 L2) as H0. unfold m_chain_left1. destruct (g inp off) as [[x k|e s| |] m]; cbn [fst snd] in *.
  - destruct H0 as [B1 B2]. pose proof (@rest_count A n a b c K g h HG HH Ha (chain_fuel inp (off + k)) x inp (off + k) B1 ltac:(lia)) as R.
    assert (a * k + a * (length inp - (off + k)) = a * (length inp - off)) by (rewrite <- Nat.mul_add_distr_l; f_equal; lia).
    destruct (m_rest (chain_fuel inp (off + k)) g h x inp (off + k)) as [[w j|e s| |] m2]; cbn [fst snd advance_success add_commit up both cnt] in *; try nia.
    destruct R as [B3 B4]. replace (off + (j + k)) with (off + k + j) by lia. split; [lia|]. nia.
  - cbn [up cnt]. lia.
  - cbn [up cnt]. lia.
  - cbn [up cnt]. lia.
Qed.

(** One element, or an uncommitted failure. *)
Definition single {A} (k : nat) (g : mparser A) : Prop := forall inp off, off <= length inp -> cnt (snd (g inp off)) <= k /\
  ((exists e, fst (g inp off) = Failure e false) \/ (off < length inp /\ exists v, fst (g inp off) = Success v 1)).
Lemma si_elm : forall c, single 1 (m_elm_ref c).
Proof.
  intros c inp off L. split; [apply le_n|]. unfold m_elm_ref, m_leaf. cbn [fst]. unfold p_elm_ref, p_elm_ref_eq, p_elm_pred_ref. rewrite ps_input_ok by exact L.
  pose proof (skipn_length off inp) as LS. destruct (skipn off inp) as [|x l]; [left; eexists; reflexivity|]. cbn [length] in LS.
  match goal with |- context [if ?t then _ else _] => destruct t end; [right|left]; [split; [lia|]|]; eexists; reflexivity.
Qed.
Lemma si_or : forall A j k (g h : mparser A), single j g -> single k h -> single (S (j + k)) (m_or g h).
Proof.
  intros A j k g h H1 H2 inp off L. destruct (H1 inp off L) as [C1 D1]. destruct (H2 inp off L) as [C2 D2]. unfold m_or. destruct (g inp off) as [o m]. cbn [fst snd] in *.
  destruct D1 as [[e ->]|[D1 [v ->]]].
  - destruct (h inp off) as [o2 m2]. cbn [fst snd up both cnt] in *. split; [lia|exact D2].
  - cbn [fst snd up cnt]. split; [lia|]. right. split; [exact D1|]. now exists v.
Qed.
Lemma gap_after : forall inp off, off <= length inp -> off + gap inp off <= length inp.
Proof. intros inp off L. pose proof (gap_le inp off). lia. Qed.
Lemma sp_op : forall A B k (g : mparser A) (f : A -> option B), single k g -> spaced (k + 11) (m_map_panic (m_skip_right (m_skip_left mc_space g) mc_space) f).
Proof.
  intros A B k g f H inp off L. unfold m_map_panic, m_one, m_skip_right, m_skip_left, m_two. destruct (cs_ok inp L) as [S1 C1]. pose proof (gap_after inp L) as GA.
  destruct (mc_space inp off) as [o m]. cbn [fst snd] in S1, C1. subst o. destruct (H inp (off + gap inp off) GA) as [C2 D2]. destruct (g inp (off + gap inp off)) as [o2 m2]. cbn [fst snd] in C2, D2.
  destruct D2 as [[e ->]|[D2 [v ->]]]; cbn [p_skip_left p_skip_right p_map_panic advance_success add_commit fst snd up both cnt].
  - cbn. destruct (gap inp off); cbn; lia.
  - destruct (@cs_ok inp (off + (gap inp off + 1)) ltac:(lia)) as [S3 C3]. pose proof (@gap_le inp (off + (gap inp off + 1))) as GL.
    unfold p_skip_left, p_skip_right, p_map_panic; cbn [advance_success add_commit].
    destruct (mc_space inp (off + (gap inp off + 1))) as [o3 m3]. cbn [fst snd] in S3, C3. subst o3. cbn [fst snd up both cnt]. destruct (f v); cbn [fst]; lia.
Qed.
Lemma sp_paren : forall A k (g : mparser A), single k g -> spaced (k + 10) (m_and (m_and mc_space g) mc_space).
Proof.
  intros A k g H inp off L. unfold m_and, m_two. destruct (cs_ok inp L) as [S1 C1]. pose proof (gap_after inp L) as GA.
  destruct (mc_space inp off) as [o m]. cbn [fst snd] in S1, C1. subst o. destruct (H inp (off + gap inp off) GA) as [C2 D2]. destruct (g inp (off + gap inp off)) as [o2 m2]. cbn [fst snd] in C2, D2.
  destruct D2 as [[e ->]|[D2 [v ->]]]; unfold p_and; cbn [fst snd up both cnt]; [lia|].
  destruct (@cs_ok inp (off + (gap inp off + 1)) ltac:(lia)) as [S3 C3]. pose proof (@gap_le inp (off + (gap inp off + 1))) as GL.
  destruct (mc_space inp (off + (gap inp off + 1))) as [o3 m3]. cbn [fst snd] in S3, C3. subst o3. cbn [fst snd up both cnt]. lia.
Qed.

Section Calls.
Variable D : Type.
Variable nd : N -> bool.
Variable dec : list N -> D + unit.
Hypothesis nd_ascii : forall x, (x < 128)%N -> (nd x = true <-> digit x).
Hypothesis dec_ascii : forall s x d, In x s -> dec s = inl d -> (x < 128)%N.
Notation prim := (mc_primary nd dec).
Local Notation per := 200.
Local Notation base := 91.

Lemma sp_mul : spaced 14 (@mc_mul_op D).
Proof. apply (@sp_op _ _ 3), (si_or (si_elm _) (si_elm _)). Qed.
Lemma sp_add : spaced 14 (@mc_add_op D).
Proof. apply (@sp_op _ _ 3), (si_or (si_elm _) (si_elm _)). Qed.
Lemma additive_count : forall n g, linx n per base 0 g -> linx n per (base + 36) 4 (@mc_additive D g).
Proof.
  intros n g H. unfold mc_additive, mc_multitive. eapply (@chain_count _ n per (base + 18) 2 14); [|apply sp_add|lia].
  apply (@chain_count _ n per base 0 14); [exact H|apply sp_mul|lia].
Qed.
Lemma sm_value : small 4 (mc_value nd dec).
Proof. unfold mc_value. apply sm_one, sm_one, sm_one, sm_leaf. Qed.
Lemma id_count : forall A n a b c (g : mparser A), linx n a b c g -> linx n a (S b) c (m_id g).
Proof.
  intros A n a b c g H inp off L1 L2. specialize (H inp off L1 L2). unfold m_id, m_map, m_one. destruct (g inp off) as [[x k|e d| |] m]; cbn [fst snd p_map up cnt] in *; lia.
Qed.
Lemma paren_count : forall n g, linx n per base 0 g ->
  linx (S n) per 40 0 (m_map (m_surround (m_and (m_and mc_space (m_elm_ref (chr "("))) mc_space) (m_lazy (mc_additive g)) (m_and (m_and mc_space (m_elm_ref (chr ")"))) mc_space)) (@CParen D)).
Proof.
  intros n g H inp off L1 L2. apply additive_count in H. pose proof (sp_paren (si_elm (chr "("))) as HO. pose proof (sp_paren (si_elm (chr ")"))) as HC.
  set (open := m_and (m_and mc_space (m_elm_ref (chr "("))) mc_space) in *. set (close := m_and (m_and mc_space (m_elm_ref (chr ")"))) mc_space) in *. set (body := mc_additive g) in *.
  clearbody open close body. unfold m_map, m_surround, m_skip_left, m_skip_right, m_lazy, m_one, m_two. specialize (HO inp off L1). pose proof (gap_le inp off) as G0.
  destruct (open inp off) as [[x n1|e b| |] m]; cbn [fst snd] in HO; unfold p_map, p_skip_left; cbn [fst snd up both cnt]; try lia.
  destruct HO as (B1 & B2 & B3). specialize (H inp (off + n1) B1 ltac:(lia)). destruct (body inp (off + n1)) as [[y n2|e b| |] m2]; cbn [fst snd] in H; unfold p_lazy, p_skip_right; cbn [fst snd up both cnt advance_success]; try lia.
  destruct H as [B4 B5]. specialize (HC inp (off + n1 + n2) B4). pose proof (gap_le inp (off + n1 + n2)) as G2.
  destruct (close inp (off + n1 + n2)) as [[z n3|e b| |] m3]; cbn [fst snd] in HC; cbn [fst snd up both cnt advance_success]; try lia.
Qed.
Lemma unary_count : forall n g, linx n per base 0 g -> linx (S n) per 9 0 (@mc_unary D g).
Proof.
  intros n g H. unfold mc_unary. apply id_count. intros inp off L1 L2. pose proof (si_or (si_elm (chr "+")) (si_elm (chr "-"))) as HS. set (sign := m_or (m_elm_ref (chr "+")) (m_elm_ref (chr "-"))) in *. clearbody sign.
  unfold m_map_panic, m_and, m_lazy, m_one, m_two. destruct (HS inp off L1) as [C1 D1]. destruct (sign inp off) as [o m]. cbn [fst snd] in C1, D1.
  destruct D1 as [[e ->]|[D1 [v ->]]]; unfold p_map_panic, p_and; cbn [fst snd up both cnt]; [lia|].
  specialize (H inp (off + 1) ltac:(lia) ltac:(lia)). destruct (g inp (off + 1)) as [[y n2|e b| |] m2]; cbn [fst snd] in H; unfold p_lazy; cbn [fst snd up both cnt]; try lia.
  destruct (v =? chr "-")%N; [|destruct (v =? chr "+")%N]; cbn [fst snd]; lia.
Qed.
Definition sg (x : N) : bool := existsb (N.eqb x) (bs "+-").
Definition op (x : N) : bool := wsp x || (chr "(" =? x)%N.
Notation paren g := (m_id (m_map (m_surround (m_and (m_and mc_space (m_elm_ref (chr "("))) mc_space) (m_lazy (mc_additive g)) (m_and (m_and mc_space (m_elm_ref (chr ")"))) mc_space)) (@CParen D))).
Lemma oa_paren : forall g, off_at op 10 (paren g).
Proof.
  intros g. apply oa_map, oa_map, oa_skip_left, oa_and. eapply (@oa_space _ (m_elm_ref (chr "(")) op 1).
  - eapply oa_le; [apply oa_elm| |apply le_n]. intros x E. unfold op. now rewrite E, orb_true_r.
  - intros x E. unfold op. now rewrite E.
Qed.
Lemma oa_value : off_at nd 4 (mc_value nd dec).
Proof. eapply oa_rej; [unfold mc_value; apply er_id, er_map, er_map_res, er_leaf|apply r_cvalue|apply sm_value]. Qed.
Lemma oa_unary : forall g, off_at sg 6 (@mc_unary D g).
Proof.
  intros g. unfold mc_unary. apply oa_map, oa_one; [intros e b inp off; now eexists|]. apply oa_and, (@oa_or _ sg 1 1); (eapply oa_le; [apply oa_elm| |apply le_n]); intros x E; apply N.eqb_eq in E; subst x; reflexivity.
Qed.
Lemma nd_apart : forall x, In x (bs "+-(" ++ [32; 9; 13; 10]%N) -> nd x = false.
Proof.
  intros x H. apply not_true_iff_false. intros E. assert (x < 128)%N by (repeat (destruct H as [<-|H]; [vm_compute; reflexivity|]); destruct H). apply nd_ascii in E; [|assumption].
  revert E. unfold digit. repeat (destruct H as [<-|H]; [vm_compute; intuition congruence|]); destruct H.
Qed.
Lemma op_in : forall x, op x = true -> In x (bs "+-(" ++ [32; 9; 13; 10]%N).
Proof.
  intros x E. unfold op in E. apply orb_prop in E as [E|E]; [apply in_or_app; right; apply wsp_is in E; exact E|]. apply N.eqb_eq in E. subst x. cbn. auto.
Qed.
Lemma linx_lin : forall A n a b (g : mparser A), linx n a b 0 g -> lin n a b g.
Proof. intros A n a b g H inp off L1 L2. specialize (H inp off L1 L2). destruct (fst (g inp off)); cbn [used]; lia. Qed.
Lemma lin_linx : forall A n a b j (g : mparser A), inside n j g -> lin n a b g -> linx n a b 0 g.
Proof. intros A n a b j g I H inp off L1 L2. specialize (H inp off L1 L2). specialize (I inp off). destruct (fst (g inp off)) as [v k| | |]; cbn [used] in H; try lia. destruct (I v k L1 L2 eq_refl). lia. Qed.
Lemma step_lin : forall n g, linx n per base 0 g -> lin (S n) per base (mc_step nd dec g (mc_additive g)).
Proof.
  intros n g H. unfold mc_step, mc_primary0.
  assert (P0 : off_at (fun x => op x || nd x) 15 (m_or (paren g) (mc_value nd dec))).
  { apply (@oa_or _ _ 10 4); (eapply oa_le; [first [apply oa_paren|apply oa_value]| |apply le_n]); intros x E; rewrite E; [reflexivity|apply orb_true_r]. }
  eapply li_le; [eapply (@li_or_apart _ (S n) per 9 60 6 15 sg); [apply oa_unary|exact P0| | |]|apply le_n|].
  - intros x E. unfold sg in E. apply existsb_exists in E. destruct E as (y & Hy & E). apply N.eqb_eq in E. subst y.
    rewrite (@nd_apart x) by (apply in_or_app; left; destruct Hy as [<-|[<-|[]]]; cbn; auto). destruct Hy as [<-|[<-|[]]]; reflexivity.
  - apply linx_lin. now apply unary_count.
  - eapply (@li_or_apart _ (S n) per 41 4 10 4 op nd); [apply oa_paren|apply oa_value|intros x E; now apply nd_apart, op_in| |].
    + apply linx_lin, id_count. now apply paren_count.
    + apply li_small, sm_value.
  - lia.
Qed.
Lemma in_primary : forall n m, n <= m -> inside n 0 (prim m).
Proof. intros n m L. eapply in_takes; [apply er_primary|now apply (@takes_primary D nd dec nd_ascii dec_ascii)]. Qed.
Lemma primary_count : forall n m, n <= m -> linx n per base 0 (prim m).
Proof.
  induction n as [|n IH]; intros m L; [intros inp off _ K; lia|]. destruct m as [|m]; [lia|]. specialize (IH m ltac:(lia)).
  eapply lin_linx; [now apply in_primary|]. cbn [mc_primary]. now apply step_lin.
Qed.
Theorem calculator_calls : forall inp, cnt (snd (mc_calculator nd dec inp 0)) <= 204 * length inp + 140.
Proof.
  intros inp. pose proof (@primary_count (S (length inp)) (S (length inp)) (le_n _)) as H. apply additive_count in H. specialize (H inp 0 ltac:(lia) ltac:(lia)). rewrite Nat.sub_0_r in H.
  unfold mc_calculator, m_skip_right, m_two. destruct (mc_additive (prim (S (length inp))) inp 0) as [[x k|e b| |] m]; cbn [fst snd] in H; cbn [fst snd up cnt]; try lia.
  destruct H as [B1 B2]. pose proof (gap_le inp (0 + k)). cbn [m_leaf fst snd up both cnt]. lia.
Qed.
End Calls.
