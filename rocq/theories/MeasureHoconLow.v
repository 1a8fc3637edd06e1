(** The measures of HoconSlow.v, which count a parser without recursion as one closure, are below those of MeasureHocon.v. *)
From Verif Require Import Base Core Comb Closure RepFacts Runs Text Hocon HoconComplete Measure HoconSlow MeasureUri MeasureHocon.
Set Implicit Arguments.
Local Open Scope string_scope.
Local Open Scope nat_scope.
Local Open Scope list_scope.

(** The same outcomes, by as many calls at least. *)
Definition finer {A} (g g' : mparser A) : Prop := forall inp off, fst (g inp off) = fst (g' inp off) /\ cnt (snd (g inp off)) <= cnt (snd (g' inp off)).
Definition busy {A} (g : mparser A) : Prop := forall inp off, 1 <= cnt (snd (g inp off)).
Lemma bu_one : forall A B (k : parser N A -> parser N B) g, busy (m_one k g).
Proof. intros A B k g inp off. unfold m_one. destruct (g inp off). cbn. lia. Qed.
Lemma bu_two : forall A B C (k : parser N A -> parser N B -> parser N C) g h, busy (m_two k g h).
Proof. intros A B C k g h inp off. unfold m_two. destruct (g inp off) as [[v n|e c| |] m]; cbn; try lia. destruct (h inp (off + n)). cbn. lia. Qed.
Lemma bu_or : forall A (g h : mparser A), busy (m_or g h).
Proof. intros A g h inp off. unfold m_or. destruct (g inp off) as [[v n|e [|]| |] m]; cbn; try lia. destruct (h inp off). cbn. lia. Qed.
Lemma fi_leaf : forall A (p : parser N A) g, erases g p -> busy g -> finer (m_leaf p) g.
Proof. intros A p g E B inp off. split; [symmetry; apply E|]. specialize (B inp off). cbn. lia. Qed.
Lemma fi_one : forall A B (k : parser N A -> parser N B) g g', finer g g' -> finer (m_one k g) (m_one k g').
Proof. intros A B k g g' H inp off. destruct (H inp off) as [H1 H2]. unfold m_one. destruct (g inp off) as [o m], (g' inp off) as [o' m']. cbn [fst snd up cnt] in *. subst o'. split; [reflexivity|lia]. Qed.
Lemma fi_two : forall A B C (k : parser N A -> parser N B -> parser N C) g g' h h', finer g g' -> finer h h' -> finer (m_two k g h) (m_two k g' h').
Proof.
  intros A B C k g g' h h' H K inp off. destruct (H inp off) as [H1 H2]. unfold m_two. destruct (g inp off) as [o m], (g' inp off) as [o' m']. cbn [fst snd] in *. subst o'.
  destruct o as [v n|e c| |]; [|cbn; split; [reflexivity|lia]..]. destruct (K inp (off + n)) as [K1 K2]. destruct (h inp (off + n)) as [o2 m2], (h' inp (off + n)) as [o2' m2']. cbn [fst snd up both cnt] in *.
  subst o2'. split; [reflexivity|lia].
Qed.
Lemma fi_or : forall A (g g' h h' : mparser A), finer g g' -> finer h h' -> finer (m_or g h) (m_or g' h').
Proof.
  intros A g g' h h' H K inp off. destruct (H inp off) as [H1 H2]. destruct (K inp off) as [K1 K2]. unfold m_or. destruct (g inp off) as [o m], (g' inp off) as [o' m']. cbn [fst snd] in *. subst o'.
  destruct o as [v n|e [|]| |]; try (cbn; split; [reflexivity|lia]). destruct (h inp off) as [o2 m2], (h' inp off) as [o2' m2']. cbn [fst snd up both cnt] in *. subst o2'. split; [reflexivity|lia].
Qed.
Lemma fi_loop : forall A B (g g' : mparser A) (s s' : option (mparser B)), finer g g' -> match s, s' with Some h, Some h' => finer h h' | None, None => True | _, _ => False end ->
  forall fuel rend inp cur items all m m', cnt m <= cnt m' ->
  fst (m_loop fuel g s rend inp cur items all m) = fst (m_loop fuel g' s' rend inp cur items all m') /\ cnt (snd (m_loop fuel g s rend inp cur items all m)) <= cnt (snd (m_loop fuel g' s' rend inp cur items all m')).
Proof.
  intros A B g g' s s' H K. induction fuel as [|fuel IH]; intros rend inp cur items all m m' L; cbn [m_loop]; [now split|]. destruct (rep_stop rend (length items)); [now split|].
  assert (E : forall cur all m m', cnt m <= cnt m' ->
    let r (g : mparser A) (s : option (mparser B)) m := let '(o, m1) := g inp cur in
      match o with
      | Success v n => m_loop fuel g s rend inp (cur + n) (v :: items) (all + n) (both m m1)
      | Failure _ _ => (RDone (rev items) all, both m m1)
      | Panic => (Comb.RPanic, both m m1)
      | Diverge => (Comb.RDiverge, both m m1)
      end in fst (r g s m) = fst (r g' s' m') /\ cnt (snd (r g s m)) <= cnt (snd (r g' s' m'))).
  { clear cur all m m' L. intros cur all m m' L r. unfold r. destruct (H inp cur) as [H1 H2]. destruct (g inp cur) as [o m1], (g' inp cur) as [o' m1']. cbn [fst snd] in *. subst o'.
    destruct o as [v n|e c| |]; [apply IH|..]; cbn [fst snd both cnt]; try split; try reflexivity; lia. }
  destruct s as [h|], s' as [h'|]; try contradiction.
  - destruct (K inp cur) as [K1 K2]. destruct (h inp cur) as [o m1], (h' inp cur) as [o' m1']. cbn [fst snd] in *. subst o'. destruct o as [v n|e c| |]; [apply E|..]; cbn [fst snd both cnt]; try split; try reflexivity; lia.
  - apply E, L.
Qed.
Lemma fi_rep : forall A B (g g' : mparser A) r (s s' : option (mparser B)), finer g g' -> match s, s' with Some h, Some h' => finer h h' | None, None => True | _, _ => False end -> finer (m_rep g r s) (m_rep g' r s').
Proof.
  intros A B g g' r s s' H K inp off. destruct (H inp off) as [H1 H2]. unfold m_rep. destruct (g inp off) as [o m], (g' inp off) as [o' m']. cbn [fst snd] in *. subst o'.
  destruct o as [v n|e c| |]; [|cbn; split; [reflexivity|lia]..].
  destruct (@fi_loop A B g g' s s' H K (rep_fuel (rg_end r) inp off) (rg_end r) inp (off + n) [v] n m m' H2) as [L1 L2].
  destruct (m_loop _ g s _ inp (off + n) [v] n m) as [d q], (m_loop _ g' s' _ inp (off + n) [v] n m') as [d' q']. cbn [fst snd up cnt] in *. subst d'. split; [reflexivity|lia].
Qed.
Lemma fi_id : forall A (g g' : mparser A), finer g g' -> finer g (m_id g').
Proof.
  intros A g g' H inp off. destruct (H inp off) as [H1 H2]. unfold m_id, m_map, m_one. destruct (g inp off) as [o m], (g' inp off) as [o' m']. cbn [fst snd up cnt] in *. subst o'.
  split; [|lia]. destruct o; reflexivity.
Qed.

Section Grammar.
Variable D : Type.
Variable dec : list N -> option D.
Ltac leaf e := apply fi_leaf; [e|first [apply bu_one | apply bu_two | apply bu_or]].
Lemma fi_soc : finer (m_leaf space_or_comment) mf_space_or_comment.
Proof. leaf ltac:(apply ef_space_or_comment). Qed.
Lemma fi_char : forall c, finer (m_leaf (spaced (p_elm_ref c))) (mf_spaced (m_elm_ref c)).
Proof. intros c. leaf ltac:(apply ef_spaced, er_elm_ref). Qed.
Section Recursion.
Variables (v v' : mparser (cv D)) (p p' : mparser (list N * cv D)).
Hypothesis Fv : finer v v'.
Hypothesis Fp : finer p p'.
Lemma fi_array : finer (mh_array v) (mf_array_cv v').
Proof. unfold mh_array, mf_array_cv. apply fi_one, fi_two; [apply fi_char|apply fi_two; [apply fi_rep; [apply fi_one, Fv|apply fi_char]|apply fi_char]]. Qed.
Lemma fi_object : finer (mh_object p) (mf_object_cv p').
Proof.
  unfold mh_object, mf_object_cv. apply fi_id, fi_one, fi_two; [apply fi_char|apply fi_two; [apply fi_rep; [apply fi_one, Fp|]|apply fi_char]].
  leaf ltac:(apply er_opt, ef_comma).
Qed.
Lemma fi_property : finer (mh_property v p) (mf_property_step v' p').
Proof.
  unfold mh_property, mf_property_step. apply fi_two; [leaf ltac:(apply ef_key_p)|]. apply fi_or; [apply fi_or; [apply fi_one, fi_two; [leaf ltac:(apply ef_kv)|apply fi_one, Fv]|apply fi_one, fi_object]|apply fi_array].
Qed.
Lemma fi_value : finer (mh_value dec v p) (mf_value_step dec v' p').
Proof.
  unfold mh_value, mf_value_step, mh_spaced, mf_spaced. apply fi_two; [apply fi_soc|apply fi_two; [|apply fi_soc]].
  repeat apply fi_or; [apply fi_one, fi_array|apply fi_one, fi_object|apply fi_one; leaf ltac:(apply ef_reference_cv)|apply fi_one; leaf ltac:(apply ef_simple_cv)|leaf ltac:(apply ef_enumeration_cv)].
Qed.
Lemma fi_config : finer (mh_config v p) (mf_config_step v' p').
Proof.
  unfold mh_config, mf_config_step. apply fi_or; [apply fi_or; [apply fi_one, fi_one, fi_rep; [apply fi_id, fi_property|exact I]|apply fi_one, fi_rep; [leaf ltac:(apply ef_include_cv)|exact I]]|].
  apply fi_rep; [apply fi_or; [apply fi_one, fi_object|apply fi_array]|exact I].
Qed.
End Recursion.
Lemma fi_fuel : forall fuel, finer (mh_value_fuel dec fuel) (mf_value_fuel dec fuel) /\ finer (mh_property_fuel dec fuel) (mf_property_fuel dec fuel).
Proof.
  induction fuel as [|fuel [IH1 IH2]]; [split; intros inp off; split; reflexivity|]. split; intros inp off; [apply (fi_value IH1 IH2)|apply (fi_property IH1 IH2)].
Qed.
Lemma fi_hocon : finer (mh_hocon dec) (mf_hocon_p dec).
Proof.
  intros inp off. unfold mh_hocon, mf_hocon_p, mh_hocon_fuel, mf_hocon_fuel. destruct (fi_fuel (S (length inp))) as [F1 F2].
  apply fi_two; [apply fi_two; [apply fi_soc|now apply fi_config]|]. apply fi_leaf; [apply er_leaf|]. intros i o. cbn. lia.
Qed.
End Grammar.
