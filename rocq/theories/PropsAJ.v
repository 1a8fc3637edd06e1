(** C123: documents of hocon that consist of includes (hocon/src/parsers.rs 21-31 and 303-327, hocon/src/model.rs 71-106,
    hocon/src/model/config_value.rs 93-101). *)
From Coq Require Import Relations Wellfounded.
From Verif Require Import PropsH PropsO UriGens PropsAE.
From Verif Require Import Base Core Comb Closure RepFacts LitFacts Hoare Weak Runs Text Json JsonSpec JsonFacts Hocon HoconFacts HoconParse HoconLookup HoconResolve HoconRefs HoconSpec HoconText HoconSound HoconComplete.
Set Implicit Arguments.
Local Open Scope string_scope.
Local Open Scope nat_scope.
Local Open Scope list_scope.

(** ** The texts *)
(** An include is a method and a name. *)
Definition incl := (list N * list N)%type.
(** A name is a path, which may end with a dot. *)
Definition incl_ok (i : incl) : Prop := (fst i = bs "file" \/ fst i = bs "url") /\ s_path (snd i).
(** The name of the file that is opened. *)
Definition quoted (p : list N) : list N := [34%N] ++ p ++ [34%N].
Definition incl_text (i : incl) : list N := bs "include " ++ fst i ++ bs "(" ++ quoted (snd i) ++ bs ")".
Definition incls_text (l : list incl) : list N := List.concat (map incl_text l).
Definition incl_cv {D} (i : incl) : cv D := CIncl (fst i) (quoted (snd i)).

Lemma quote_stop : forall l, path_stop (34%N :: l).
Proof. intros l. split; [|discriminate]. unfold path_letter, letter. cbn. lia. Qed.
Lemma a_name_text : forall p l, s_path p -> acc path_p p (34%N :: l) p.
Proof.
  intros p l [H|(q & -> & H)]; [apply a_path_text; [exact H|apply quote_stop]|].
  assert (Hs : exists c t vs, q = c ++ t /\ acc path_element c (t ++ bs "." ++ 34%N :: l) c /\ schain path_element (p_elm (chr ".")) t (bs "." ++ 34%N :: l) vs).
  { assert (Nd : ~ path_letter 46%N) by (unfold path_letter, letter; cbn; lia). clear -H Nd.
    induction H as [c Hne Hc|c p Hne Hc Hp (c2 & t & vs & -> & A & C)].
    - exists c, [], []. rewrite app_nil_r. repeat split; [|constructor]. apply a_path_element; [exact Hne|exact Hc|exact Nd].
    - exists c, (bs "." ++ c2 ++ t), (c2 :: vs). repeat split.
      + apply a_path_element; [exact Hne|exact Hc|exact Nd].
      + econstructor; [apply a_elm|exact A| |exact C]. discriminate. }
  destruct Hs as (c & t & vs & E & A & C). unfold path_p. eapply a_map_res with (v := q ++ bs ".").
  - eapply a_collect. unfold p_many1_sep. rewrite E, <- app_assoc. eapply a_repeat_sep_dangling with (w := chr "."); [exact A|exact C|apply a_elm| |lia].
    apply r_path_element. unfold path_letter, letter. cbn. lia.
  - apply ascii_utf8. apply Forall_app. split; [now apply path_ascii|]. repeat constructor.
Qed.
Lemma a_incl : forall D i rest, incl_ok i -> acc (include_cv D) (incl_text i) rest (incl_cv i).
Proof.
  intros D [m p] rest [Hm Hp]. cbn [fst snd] in *. unfold include_cv, incl_text, quoted, incl_cv, quoted. cbn [fst snd].
  eapply a_map_eq with (v := (m, p)); [|reflexivity].
  replace (bs "include " ++ m ++ bs "(" ++ ([34%N] ++ p ++ [34%N]) ++ bs ")") with (((bs "include" ++ [32%N]) ++ m) ++ (bs "(" ++ [34%N]) ++ p ++ ([34%N] ++ bs ")"))
    by (now rewrite <- !app_assoc).
  eapply a_and; [eapply a_skip_left; [eapply a_skip_left; [apply a_seqN|apply a_elm]|apply a_method; destruct Hm as [->| ->]; unfold include_method_gen; cbn; tauto]|].
  eapply a_surround; [apply a_seqN| |apply a_seqN]. cbn [app]. now apply a_name_text.
Qed.
Lemma incl_head : forall i, incl_ok i -> exists x t, fst i = x :: t /\ (x = 102%N \/ x = 117%N).
Proof. intros [m p] [[H|H] _]; cbn in *; subst; eexists _, _; (split; [reflexivity|tauto]). Qed.
Lemma r_incl : forall D l, match l with [] => True | x :: _ => x <> 105%N end -> rej (include_cv D) l false.
Proof. intros D l H. unfold include_cv. apply r_map, r_and1, r_skip_left1, r_skip_left1, r_seqN. exact H. Qed.
Lemma incl_chain : forall D l rest, Forall incl_ok l -> chain (include_cv D) (incls_text l) rest (map incl_cv l).
Proof.
  intros D l rest H. induction H as [|i l Hi H IH]; [constructor|]. unfold incls_text. cbn [map List.concat]. constructor; [now apply a_incl|discriminate|exact IH].
Qed.
Lemma r_incl_prop : forall D (dec : list N -> option D) value prop i l rest, incl_ok i ->
  rej (@property_step D value prop) (incls_text (i :: l) ++ rest) false.
Proof.
  intros D dec value prop i l rest Hi. destruct (incl_head Hi) as (x & t & Ex & Hx).
  assert (Hs : forall r, solid (x :: r)) by (intros r; apply solid_hd; cbn; lia).
  set (r := x :: t ++ bs "(" ++ quoted (snd i) ++ bs ")" ++ incls_text l ++ rest).
  replace (incls_text (i :: l) ++ rest) with (([] ++ bs "include" ++ [32%N]) ++ r)
    by (unfold r, incls_text, incl_text; cbn [map List.concat]; rewrite Ex, <- !app_assoc; reflexivity).
  unfold property_step. apply r_and2 with (a := bs "include").
  - apply a_key.
    + left. split; [reflexivity|]. constructor; [discriminate|]. repeat apply Forall_cons; [left; unfold letter; cbn; lia..|apply Forall_nil].
    + apply skips_nil. apply solid_hd. cbn. lia.
    + apply skips_ws; [repeat constructor; cbn; tauto|apply Hs].
    + split; [|discriminate]. unfold path_letter, letter. cbn. lia.
    + apply skips_nil, Hs.
  - apply (@r_rest D dec value prop [] r); [constructor|apply skips_nil, Hs|]. unfold r. cbn. destruct Hx as [-> | ->]; lia.
Qed.
Lemma incl_solid : forall i l rest, solid (incls_text (i :: l) ++ rest).
Proof. intros i l rest. unfold incls_text, incl_text. cbn [map List.concat]. rewrite <- !app_assoc. apply solid_hd. cbn. lia. Qed.
Lemma a_incls : forall D (dec : list N -> option D) n l rest, Forall incl_ok l -> l <> [] -> match rest with [] => True | x :: _ => x <> 105%N end ->
  acc (config_step (value_fuel dec n) (property_fuel dec n)) (incls_text l) rest (map incl_cv l).
Proof.
  intros D dec n [|i l] rest H Hl Hr; [congruence|]. inversion H as [|? ? Hi Hl']. subst. unfold config_step. apply a_or1, a_or2.
  - eapply r_attempt, r_map, r_many1. now apply (r_incl_prop dec).
  - apply a_attempt. eapply a_many1; [now apply incl_chain|now apply r_incl|discriminate].
Qed.

(** ** C123: what is read *)
(** Includes that follow each other directly are read in order, after any layout. *)
Theorem C123_read : forall D (dec : list N -> option D) w l, block w -> Forall incl_ok l -> l <> [] ->
  hocon_p dec (w ++ incls_text l) 0 = Success (map incl_cv l) (length (w ++ incls_text l)).
Proof.
  intros D dec w l Hw H Hl. unfold hocon_p. set (n := S _). unfold hocon_fuel.
  assert (A : acc (p_skip_right (p_skip_left space_or_comment (config_step (value_fuel dec n) (property_fuel dec n))) p_end) ((w ++ incls_text l) ++ []) [] (map incl_cv l)).
  { eapply a_skip_right; [|apply a_end]. eapply a_skip_left; [|cbn [app]; now apply a_incls]. apply block_skips; [exact Hw|]. cbn [app].
    destruct l as [|i l]; [congruence|]. apply incl_solid. }
  specialize (A []). cbn [app List.length] in A. rewrite !app_nil_r in A. exact A.
Qed.
(** A document with an include consists of includes, with layout before the first and nothing else. *)
Lemma s_includes_text : forall D t (vs : list (cv D)), s_includes t vs -> exists l, Forall incl_ok l /\ t = incls_text l /\ vs = map incl_cv l.
Proof.
  intros D t vs H. induction H as [|m p t vs Hm Hp H (l & Hl & -> & ->)]; [exists []; repeat split; constructor|].
  exists ((m, p) :: l). split; [constructor; [now split|exact Hl]|]. split; [|reflexivity]. unfold incls_text, incl_text, quoted. cbn [map List.concat fst snd].
  now rewrite <- !app_assoc.
Qed.
Lemma block_not_incl : forall D (dec : list N -> option D) s r m f, ~ s_block dec s r (CIncl m f).
Proof. intros D dec s r m f H. inversion H. Qed.
Theorem C123_nothing_else : forall D (dec : list N -> option D) text vs n m f, hocon_p dec text 0 = Success vs n -> In (CIncl m f) vs ->
  exists w l, text = w ++ incls_text l /\ lay w (incls_text l) /\ Forall incl_ok l /\ vs = map incl_cv l.
Proof.
  intros D dec text vs n m f E Hi. apply hocon_sound in E. destruct E as [_ E]. destruct E as [a t ps mm La Hr Hne Hj|a t vs La Hs Hne|a t vs La Hs].
  - destruct Hi as [Hi|[]]. discriminate.
  - destruct (s_includes_text Hs) as (l & Hl & -> & ->). exists a, l. auto.
  - exfalso. clear La. induction Hs as [|s t v vs Hb Hs IH]; [exact Hi|]. destruct Hi as [->|Hi]; [exact (block_not_incl Hb)|auto].
Qed.
(** Hence nothing may follow the last include, be it an end of line, and no two includes may stand on different lines. *)
Theorem C123_lines_rejected : forall D (dec : list N -> option D) env files w l x rest fuel c, block w -> Forall incl_ok l -> l <> [] -> x <> 105%N ->
  parse_from_string dec env files fuel (w ++ incls_text l ++ x :: rest) <> ROk (Some c).
Proof.
  intros D dec env files w l x rest fuel c Hw H Hl Hx E. unfold parse_from_string, parse_from_string_with, hocon_p in E. revert E. set (n := S _). unfold hocon_fuel.
  assert (R : rej (p_skip_right (p_skip_left space_or_comment (config_step (value_fuel dec n) (property_fuel dec n))) p_end) ((w ++ incls_text l) ++ x :: rest) false).
  { eapply r_skip_right2; [|apply r_end]. eapply a_skip_left; [|now apply a_incls]. apply block_skips; [exact Hw|].
    destruct l as [|i l]; [congruence|]. apply incl_solid. }
  destruct (R []) as [e E]. cbn [app List.length] in E. rewrite <- app_assoc in E. rewrite E. destruct (error_input e); discriminate.
Qed.

(** ** C123: what is loaded *)
Section Loading.
Context {D : Type}.
Variable dec : list N -> option D.
Variables env files : list N -> option (list N).
(** The text of a file; a file that cannot be read counts as empty. *)
Definition file_text (f : list N) : list N := match files f with Some t => t | None => [] end.
Definition loads (text : list N) (c : cv D) : Prop := exists fuel, parse_from_string dec env files fuel text = ROk (Some c).
(** The values merged from left to right. *)
Fixpoint merged (c : cv D) (cs : list (cv D)) : cv D := match cs with [] => c | d :: cs => merged (merge_with c d) cs end.
Lemma merged_fold : forall cs c, fold_left (@merge_with D) cs c = merged c cs.
Proof. induction cs as [|d cs IH]; intros c; [reflexivity|apply IH]. Qed.
Lemma parse_mono : forall n m text c, n <= m -> parse_from_string dec env files n text = ROk c -> parse_from_string dec env files m text = ROk c.
Proof.
  intros n m text c H E. unfold parse_from_string, parse_from_string_with in *. destruct (hocon_p dec text 0) as [vs k|e k| |]; try assumption.
  apply rbind_ok in E. destruct E as (v & E1 & E). apply rbind_ok in E. destruct E as (w & E2 & E).
  rewrite (@stage0_mono _ dec env files n m vs v H E1). cbn [rbind]. unfold resolve_stage1 in *.
  rewrite (@resolve_mono _ dec env files n m v (Some v) w H E2). exact E.
Qed.
Lemma loads_fun : forall text c d, loads text c -> loads text d -> c = d.
Proof.
  intros text c d [n E] [m F]. apply (@parse_mono n (n + m)) in E; [|lia]. apply (@parse_mono m (n + m)) in F; [|lia]. congruence.
Qed.
Lemma incl_resolve : forall n i s c, resolve dec env files (S n) (incl_cv i) s = ROk c <->
  parse_from_string dec env files n (file_text (quoted (snd i))) = ROk (Some c).
Proof.
  intros n i s c. unfold incl_cv. cbn [Hocon.resolve resolve_step]. unfold load_from_file_with, parse_from_string, file_text.
  destruct (parse_from_string_with _ _ _) as [[x|]| |]; cbn [rbind]; split; intros H; inversion H; reflexivity.
Qed.
Lemma incls_resolve : forall l cs, Forall2 (fun i c => loads (file_text (quoted (snd i))) c) l cs <->
  exists n, rmap (fun v => resolve dec env files n v None) (map incl_cv l) = ROk cs.
Proof.
  intros l cs. split.
  - intros H. induction H as [|i c l cs [n Hi] H [m IH]]; [now exists 0|]. exists (S (n + m)). cbn [map rmap].
    rewrite (proj2 (incl_resolve (n + m) i None c)) by (apply (@parse_mono n); [lia|exact Hi]). cbn [rbind].
    erewrite rmap_mono; [|intros x y Hx; eapply (@resolve_mono _ dec env files m (S (n + m))); [lia|exact Hx]|exact IH]. reflexivity.
  - intros [n H]. apply rmap_inv in H. remember (map incl_cv l) as vs eqn:Ev. revert l Ev. induction H as [|v c vs cs Hv H IH]; intros [|i l] Ev; try discriminate; constructor.
    + injection Ev as -> _. destruct n as [|n]; [discriminate|]. apply incl_resolve in Hv. now exists n.
    + injection Ev as _ Ev. now apply IH.
Qed.
Lemma before_incls : forall w i l v, block w -> incl_ok i -> Forall incl_ok l ->
  (before dec env files (w ++ incls_text (i :: l)) v <-> exists c cs, Forall2 (fun i c => loads (file_text (quoted (snd i))) c) (i :: l) (c :: cs) /\ v = merged c cs).
Proof.
  intros w i l v Hw Hi Hl. assert (R := @C123_read D dec w (i :: l) Hw (Forall_cons _ Hi Hl) ltac:(discriminate)). split.
  - intros (vs & n & fuel & E & S). rewrite R in E. injection E as <- _. cbn [map resolve_stage0] in S. apply rbind_ok in S. destruct S as (c & E1 & S).
    apply rbind_ok in S. destruct S as (cs & E2 & S). injection S as <-. exists c, cs. split; [|now rewrite merged_fold].
    apply incls_resolve. exists fuel. cbn [map rmap]. rewrite E1. cbn [rbind]. rewrite E2. reflexivity.
  - intros (c & cs & H & ->). apply incls_resolve in H. destruct H as [fuel H]. cbn [map rmap] in H. apply rbind_ok in H. destruct H as (c' & E1 & H).
    apply rbind_ok in H. destruct H as (cs' & E2 & H). injection H as -> ->. eexists _, _, fuel. split; [exact R|]. cbn [map resolve_stage0].
    rewrite E1. cbn [rbind]. rewrite E2. cbn [rbind]. now rewrite merged_fold.
Qed.
End Loading.
(** A document of includes loads if and only if each of the files loads by itself; its references are those that are left in the merge of
    the files. *)
Theorem C123_loads_iff : forall D (dec : list N -> option D) env files w i l c, block w -> incl_ok i -> Forall incl_ok l ->
  (loads dec env files (w ++ incls_text (i :: l)) c <->
   exists d ds, Forall2 (fun i x => loads dec env files (file_text files (quoted (snd i))) x) (i :: l) (d :: ds) /\
     resolves dec env files (merged d ds) (merged d ds) c).
Proof.
  intros D dec env files w i l c Hw Hi Hl. split.
  - intros [n E]. assert (exists v, before dec env files (w ++ incls_text (i :: l)) v) as [v Hb].
    { pose proof (@C123_read D dec w (i :: l) Hw (Forall_cons _ Hi Hl) ltac:(discriminate)) as R. unfold parse_from_string, parse_from_string_with in E. rewrite R in E.
      apply rbind_ok in E. destruct E as (v & E1 & _). exists v. eexists _, _, n. split; [exact R|exact E1]. }
    destruct (proj1 (before_incls dec env files v Hw Hi Hl) Hb) as (d & ds & H & ->). exists d, ds. split; [exact H|]. apply (load_stages c Hb). now exists n.
  - intros (d & ds & H & R). apply load_stages with (v := merged d ds); [|exact R]. apply before_incls; auto. now exists d, ds.
Qed.
(** Files without references that are left load to their merge, the first one first. *)
Theorem C123_merge : forall D (dec : list N -> option D) env files w i l d ds, block w -> incl_ok i -> Forall incl_ok l ->
  Forall2 (fun i x => loads dec env files (file_text files (quoted (snd i))) x) (i :: l) (d :: ds) -> Forall (@noref D) (d :: ds) ->
  forall c, loads dec env files (w ++ incls_text (i :: l)) c <-> c = merged d ds.
Proof.
  intros D dec env files w i l d ds Hw Hi Hl H Hn c.
  assert (Nm : noref (merged d ds)).
  { inversion Hn as [|? ? N1 N2]. clear -N1 N2. revert d N1. induction N2 as [|x ds Hx N2 IH]; intros d N1; [exact N1|]. cbn [merged]. apply IH. now apply noref_merge. }
  assert (R : forall c, resolves dec env files (merged d ds) (merged d ds) c <-> c = merged d ds).
  { intros c'. destruct (C75_unchanged dec env files (merged d ds) Nm) as [n E]. split.
    - intros [m F]. apply (@resolve_mono _ dec env files m (n + m)) in F; [|lia]. rewrite E in F by lia. congruence.
    - intros ->. exists n. now apply E. }
  rewrite C123_loads_iff by assumption. split.
  - intros (x & xs & Hx & Rx). assert (x :: xs = d :: ds) as Eq; [|injection Eq as -> ->; now apply R].
    clear -H Hx. remember (i :: l) as q eqn:Eq. clear Eq. revert H. generalize (d :: ds) as ys. revert Hx. generalize (x :: xs) as zs. intros zs Hz.
    induction Hz as [|j z q zs Hj Hz IH]; intros ys Hy; inversion Hy; subst; [reflexivity|]. f_equal; [eapply loads_fun; eassumption|now apply IH].
  - intros ->. exists d, ds. split; [exact H|now apply R].
Qed.

(** ** C123: files that include each other *)
(** The text consists of includes, one of which names the file [f]. *)
Definition names_file (text f : list N) : Prop :=
  exists w l i, block w /\ Forall incl_ok l /\ In i l /\ text = w ++ incls_text l /\ f = quoted (snd i).
(** [includes files g f]: the file [f] includes the file [g]. *)
Definition includes (files : list N -> option (list N)) (g f : list N) : Prop := exists text, files f = Some text /\ names_file text g.
Lemma names_loads : forall D (dec : list N -> option D) env files text f fuel c, names_file text f -> parse_from_string dec env files fuel text = ROk (Some c) ->
  exists n d, n < fuel /\ parse_from_string dec env files n (file_text files f) = ROk (Some d).
Proof.
  intros D dec env files text f fuel c (w & l & i & Hw & Hl & Hi & -> & ->) E.
  assert (Hne : l <> []) by (intros ->; exact Hi).
  unfold parse_from_string, parse_from_string_with in E. rewrite (@C123_read D dec w l Hw Hl Hne) in E. apply rbind_ok in E. destruct E as (v & E & _).
  destruct l as [|j l]; [congruence|]. cbn [map resolve_stage0] in E. apply rbind_ok in E. destruct E as (d & E1 & E). apply rbind_ok in E. destruct E as (ds & E2 & _).
  assert (X : exists d, resolve dec env files fuel (incl_cv i) None = ROk d).
  { destruct Hi as [->|Hi]; [now exists d|]. apply rmap_inv in E2. clear -E2 Hi. revert ds E2. induction l as [|k l IH]; intros ds E2; [contradiction|].
    inversion E2; subst. destruct Hi as [->|Hi]; [eauto|eapply IH; eauto]. }
  destruct X as [x X]. destruct fuel as [|n]; [discriminate|]. apply incl_resolve in X. exists n, x. split; [lia|exact X].
Qed.
(** What loads includes files in a well-founded way. *)
Theorem C123_loaded_well_founded : forall D (dec : list N -> option D) env files text f fuel c, parse_from_string dec env files fuel text = ROk (Some c) ->
  names_file text f -> Acc (includes files) f.
Proof.
  intros D dec env files text f fuel. revert text f. induction fuel as [fuel IH] using lt_wf_ind. intros text f c E H.
  destruct (@names_loads _ _ _ _ _ _ _ _ H E) as (n & d & Hn & F). constructor. intros g (t & Et & Hg). unfold file_text in F. rewrite Et in F. exact (IH n Hn t g d F Hg).
Qed.
(** A document that leads to a cycle of includes, however long, never loads. *)
Theorem C123_cycle_never_loads : forall D (dec : list N -> option D) env files text f g, names_file text f ->
  clos_refl_trans _ (includes files) g f -> clos_trans _ (includes files) g g -> forall fuel c, parse_from_string dec env files fuel text <> ROk (Some c).
Proof.
  intros D dec env files text f g H Hp Hc fuel c E. pose proof (@C123_loaded_well_founded _ _ _ _ _ _ _ _ E H) as A.
  assert (A' : Acc (includes files) g).
  { clear - A Hp. apply clos_rt_rtn1 in Hp. induction Hp as [|y z Hy Hp IH]; [exact A|]. apply IH. now apply (Acc_inv A). }
  clear - A' Hc. apply Acc_clos_trans in A'. induction A' as [x _ IH]. exact (IH x Hc Hc).
Qed.
(** A file that begins with an include of itself exhausts every stack: no error is reported and no panic is raised. *)
Theorem C123_self_exhausts : forall D (dec : list N -> option D) env files w i l, block w -> incl_ok i -> Forall incl_ok l ->
  files (quoted (snd i)) = Some (w ++ incls_text (i :: l)) -> forall fuel, parse_from_string dec env files fuel (w ++ incls_text (i :: l)) = RDiverge.
Proof.
  intros D dec env files w i l Hw Hi Hl Hf fuel. pose proof (@C123_read D dec w (i :: l) Hw (Forall_cons _ Hi Hl) ltac:(discriminate)) as R.
  induction fuel as [|fuel IH]; unfold parse_from_string, parse_from_string_with; rewrite R; cbn [map resolve_stage0]; [reflexivity|].
  unfold incl_cv at 1. cbn [Hocon.resolve resolve_step]. unfold load_from_file_with. rewrite Hf. unfold parse_from_string in IH. rewrite IH. reflexivity.
Qed.

(** ** Cases *)
Definition q34 (s : string) : list N := [34%N] ++ bs s ++ [34%N].
Definition i_a : incl := (bs "file", bs "a").
Definition i_b : incl := (bs "url", bs "lib.b.").
Definition two_files (name : list N) : option (list N) :=
  if list_eq_dec N.eq_dec name (q34 "a") then Some (bs "x = true" ++ nl ++ bs "y { z = ""abc"" }") else if list_eq_dec N.eq_dec name (q34 "lib.b.") then Some (bs "y { u = ""7"" }") else None.
Definition two_text : list N := nl ++ bs "include file(""a"")include url(""lib.b."")".
Ltac ltrs := repeat apply Forall_cons; [left; unfold letter; cbn; lia..|apply Forall_nil].
Lemma ok_a : incl_ok i_a.
Proof. split; [now left|]. left. constructor; [discriminate|ltrs]. Qed.
Lemma ok_b : incl_ok i_b.
Proof.
  split; [now right|]. right. exists (bs "lib" ++ bs "." ++ bs "b"). split; [reflexivity|]. apply gp_more; [discriminate|ltrs|]. constructor; [discriminate|ltrs].
Qed.
Lemma block_nl : block nl.
Proof. exists nl, []. repeat split; [|constructor]. apply Forall_cons; [cbn; tauto|constructor]. Qed.
Definition file_a : cv (list N) := CObj [(bs "x", CBool true); (bs "y", CObj [(bs "z", CStr (bs "abc"))])].
Definition file_b : cv (list N) := CObj [(bs "y", CObj [(bs "u", CStr (bs "7"))])].
Example C123_case : block nl /\ incl_ok i_a /\ incl_ok i_b /\ two_text = nl ++ incls_text [i_a; i_b] /\
  Forall2 (fun i x => loads xdec nothing two_files (file_text two_files (quoted (snd i))) x) [i_a; i_b] [file_a; file_b] /\
  Forall (@noref _) [file_a; file_b] /\
  merged file_a [file_b] = CObj [(bs "x", CBool true); (bs "y", CObj [(bs "z", CStr (bs "abc")); (bs "u", CStr (bs "7"))])].
Proof.
  split; [exact block_nl|]. split; [exact ok_a|]. split; [exact ok_b|]. split; [reflexivity|]. split; [|split; [|reflexivity]].
  - repeat constructor; exists 5; vm_compute; reflexivity.
  - repeat constructor.
Qed.
Example C123_nothing_else_case : exists vs n, hocon_p xdec two_text 0 = Success vs n /\ In (CIncl (bs "url") (q34 "lib.b.")) vs.
Proof. exists [incl_cv i_a; incl_cv i_b], 39. split; [vm_compute; reflexivity|]. right. left. reflexivity. Qed.
(** Two files that include each other; a document that includes one of them. *)
Definition round_files (name : list N) : option (list N) :=
  if list_eq_dec N.eq_dec name (q34 "a") then Some (incls_text [i_b]) else if list_eq_dec N.eq_dec name (q34 "lib.b.") then Some (incls_text [i_a]) else None.
Lemma names_one : forall i, incl_ok i -> names_file (incls_text [i]) (quoted (snd i)).
Proof.
  intros i H. exists [], [i], i. split; [exists [], []; repeat constructor|]. split; [constructor; [exact H|constructor]|]. split; [now left|]. now split.
Qed.
Example C123_cycle_case : names_file (incls_text [i_a]) (q34 "a") /\ clos_trans _ (includes round_files) (q34 "a") (q34 "a").
Proof.
  split; [exact (names_one ok_a)|]. apply t_trans with (y := q34 "lib.b."); apply t_step.
  - exists (incls_text [i_a]). split; [reflexivity|exact (names_one ok_a)].
  - exists (incls_text [i_b]). split; [reflexivity|exact (names_one ok_b)].
Qed.
Example C123_self_case : forall fuel,
  parse_from_string xdec nothing (fun f => if list_eq_dec N.eq_dec f (q34 "a") then Some (bs "include file(""a"")") else None) fuel (bs "include file(""a"")") = RDiverge.
Proof.
  apply (@C123_self_exhausts _ xdec nothing _ [] i_a []); [exists [], []; repeat constructor|exact ok_a|constructor|reflexivity].
Qed.
(** (!) Includes on two lines are not read, although each file loads. *)
Theorem C123_two_lines_refuted : exists text, text = incl_text i_a ++ nl ++ incl_text i_b /\
  (exists c, loads xdec nothing two_files (incl_text i_a) c) /\ (exists c, loads xdec nothing two_files (incl_text i_b) c) /\
  forall c, ~ loads xdec nothing two_files text c.
Proof.
  eexists. split; [reflexivity|]. split; [exists file_a; exists 6; vm_compute; reflexivity|]. split; [exists file_b; exists 6; vm_compute; reflexivity|].
  intros c [fuel E]. revert E. change (incl_text i_a ++ nl ++ incl_text i_b) with ([] ++ incls_text [i_a] ++ 10%N :: incl_text i_b).
  apply C123_lines_rejected; [exists [], []; repeat constructor|constructor; [exact ok_a|constructor]|discriminate|discriminate].
Qed.
(** (!) A file cannot refer to what another file defines: the document does not load, although the merged texts would. *)
Definition def_file : list N := bs "x = true".
Definition ref_file : list N := bs "w = ${x}".
Definition shared_files (name : list N) : option (list N) :=
  if list_eq_dec N.eq_dec name (q34 "a") then Some def_file else if list_eq_dec N.eq_dec name (q34 "lib.b.") then Some ref_file else None.
Theorem C123_shared_reference_refuted : (exists c, loads xdec nothing shared_files (def_file ++ nl ++ ref_file) c) /\
  (exists c, loads xdec nothing shared_files def_file c) /\ forall c, ~ loads xdec nothing shared_files (incls_text [i_a; i_b]) c.
Proof.
  split; [eexists; exists 6; vm_compute; reflexivity|]. split; [eexists; exists 6; vm_compute; reflexivity|].
  intros c H. change (incls_text [i_a; i_b]) with ([] ++ incls_text [i_a; i_b]) in H.
  apply C123_loads_iff in H; [|exists [], []; repeat constructor|exact ok_a|constructor; [exact ok_b|constructor]].
  destruct H as (d & ds & H & _). inversion H as [|? ? ? ? _ H2]; subst. inversion H2 as [|? y ? ? [n E] _]; subst.
  change (file_text shared_files (quoted (snd i_b))) with ref_file in E. apply (@parse_mono _ xdec nothing shared_files n (6 + n)) in E; [|lia].
  revert E. cbn [Nat.add]. unfold parse_from_string, parse_from_string_with.
  replace (hocon_p xdec ref_file 0) with (Success (I := N) [CObj [(bs "w", CRef (D := list N) None (bs "x") false)]] 8) by (vm_compute; reflexivity).
  vm_compute. discriminate.
Qed.
Print Assumptions C123_read.
Print Assumptions C123_nothing_else.
Print Assumptions C123_lines_rejected.
Print Assumptions C123_loads_iff.
Print Assumptions C123_merge.
Print Assumptions C123_loaded_well_founded.
Print Assumptions C123_cycle_never_loads.
Print Assumptions C123_self_exhausts.
Print Assumptions C123_two_lines_refuted.
Print Assumptions C123_shared_reference_refuted.
