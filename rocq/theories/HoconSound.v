(** Every text that the hocon parsers read is a text of HoconText.v. *)
From Verif Require Import Base Core Comb Closure RepFacts LitFacts Hoare Weak Runs Reads Text Json JsonSpec JsonFacts Hocon HoconFacts HoconParse HoconResolve HoconSpec HoconText.
Set Implicit Arguments.
Local Open Scope string_scope.
Local Open Scope nat_scope.
Local Open Scope list_scope.

(** ** Layout *)
Lemma lay_app : forall a b r, lay a (b ++ r) -> lay b r -> lay (a ++ b) r.
Proof.
  intros a b r H. remember (b ++ r) as q eqn:Eq. revert b r Eq. induction H as [q|x g q Hx H IH|c g q Hc H IH|h t Hh Ht]; intros b r Eq Hb; try subst q.
  - exact Hb.
  - cbn. constructor; auto.
  - rewrite <- app_assoc. constructor; auto.
  - destruct b; [|discriminate]. destruct r; [|discriminate]. rewrite app_nil_r. now constructor.
Qed.
Lemma ws_lay : forall w r, ws w -> lay w r.
Proof. intros w r H. induction H; constructor; auto. Qed.
Lemma h_hspace_ws : hoare hspace (fun _ s => ws s).
Proof.
  unfold hspace. eapply h_collect with (Q := fun _ s => ws s); [|auto].
  eapply h_many0 with (Q := fun v s => s = [v] /\ In v [32; 9; 13; 10]%N).
  - apply h_elm_ref_of. intros x Hx. split; [reflexivity|]. now apply set_contains_in in Hx.
  - now intros v s [-> _].
  - intros vs s H. induction H as [|v s vs t [-> Hv] _ IH]; [constructor|]. cbn. now constructor.
Qed.
Lemma tt_loop_split : forall (f : N -> bool) l i j b, tt_loop f l i = (j, b) ->
  if b then exists t x r, l = t ++ [x] ++ r /\ j = i + length t /\ Forall (fun y => f y = false) t /\ f x = true
  else Forall (fun y => f y = false) l.
Proof.
  intros f. induction l as [|c l IH]; intros i j b E; cbn in E.
  - inv E. constructor.
  - destruct (f c) eqn:Ec.
    + inv E. exists [], c, l. cbn. repeat split; auto.
    + apply IH in E. destruct b.
      * destruct E as (t & x & r & -> & -> & H1 & H2). exists (c :: t), x, r. cbn. repeat split; auto with arith.
      * now constructor.
Qed.
Lemma rd_comment_line : reads (p_and comment_head comment_tail) (fun _ s r => comment_line s \/ r = [] /\ exists h t, s = h ++ t /\ (h = bs "#" \/ h = bs "//") /\ Forall (fun y => ~ newline y) t).
Proof.
  assert (Nl : forall y, (y =? 13)%N || (y =? 10)%N = false -> ~ newline y).
  { intros y E [->| ->]; discriminate. }
  eapply rd_and with (P := fun _ s _ => s = bs "#" \/ s = bs "//")
    (Q := fun _ s r => (exists t x, s = t ++ [x] /\ Forall (fun y => ~ newline y) t /\ newline x) \/ r = [] /\ Forall (fun y => ~ newline y) s).
  - apply rd_hoare. unfold comment_head. apply h_or; [apply h_attempt|].
    + eapply h_collect with (Q := fun _ s => s = bs "//"); [apply h_seqN; reflexivity|auto].
    + eapply h_collect with (Q := fun _ s => s = bs "#"); [apply h_elm_ref; reflexivity|auto].
  - intros pre l v n E. unfold comment_tail, p_take_till0 in E. rewrite input_at in E. destruct (tt_loop _ l 0) as [i b] eqn:El.
    apply tt_loop_split in El. destruct b.
    + destruct El as (t & x & r & -> & -> & H1 & H2). destruct (slice_with_len _ _ _); [|discriminate]. inv E.
      exists (t ++ [x]), r. rewrite <- app_assoc, app_length. repeat split. left. exists t, x. repeat split.
      * eapply Forall_impl; [|exact H1]. exact Nl.
      * unfold newline. destruct (N.eqb_spec x 13), (N.eqb_spec x 10); auto. discriminate.
    + inv E. exists v, []. rewrite app_nil_r. repeat split. right. split; [reflexivity|]. eapply Forall_impl; [|exact El]. exact Nl.
  - cbv beta. intros _ _ h t r Hh [(u & x & -> & H1 & H2)|[-> H]].
    + left. exists h, u, x. repeat split; auto.
    + right. split; [reflexivity|]. exists h, t. repeat split; auto.
Qed.
Lemma rd_comment : reads comment (fun _ s r => lay s r).
Proof.
  unfold comment. eapply rd_collect; [|intros v s r H; exact H]. eapply rd_and; [apply rd_hoare, h_hspace_ws| |].
  - eapply rd_many1; [apply rd_comment_line|]. intros vs s r _ H. apply (fun (P : lay s r) => P).
    induction H as [r|v s vs t r H _ IH]; [constructor|]. destruct H as [H|(E & h & u & -> & H1 & H2)].
    + now constructor.
    + apply app_eq_nil in E. destruct E as [-> ->]. rewrite app_nil_r. now constructor.
  - cbv beta. intros a b s t r H1 H2. apply lay_app; [now apply ws_lay|exact H2].
Qed.
Lemma rd_soc : reads space_or_comment (fun _ s r => lay s r).
Proof.
  unfold space_or_comment. eapply rd_discard; [|intros v s r H; exact H]. apply rd_or; [apply rd_attempt, rd_comment|].
  eapply rd_weaken; [apply rd_hoare, h_hspace_ws|]. intros. now apply ws_lay.
Qed.
Lemma rd_spaced : forall A (p : parser N A) Q (R : A -> list N -> list N -> Prop), reads p Q ->
  (forall v a s b r, lay a (s ++ b ++ r) -> Q v s (b ++ r) -> lay b r -> R v (a ++ s ++ b) r) -> reads (spaced p) R.
Proof. intros A p Q R H K. unfold spaced. eapply rd_surround; [apply rd_soc|exact H|apply rd_soc|]. cbv beta. intros. now apply K. Qed.

(** ** Scalars *)
Lemma path_char_letter : forall x, path_char x -> path_letter x.
Proof.
  intros x [H|H]; [left|now right]. unfold is_ascii_alpha, in_range in H. unfold letter.
  repeat rewrite ?Bool.orb_true_iff, ?Bool.andb_true_iff, ?N.leb_le in H. lia.
Qed.
Lemma h_spath_raw : hoare (p_collect (p_many1_sep path_element (p_elm (chr ".")))) (fun v s => v = s /\ s_path s).
Proof.
  eapply h_collect with (Q := fun _ s => s_path s); [|auto].
  eapply h_many1_sep with (S := fun _ s => s = [46%N]); [apply h_path_element|apply h_elm; reflexivity| |].
  - intros v s w t (_ & H & _) _ E. apply app_eq_nil in E. tauto.
  - intros v s vs t HQ HT. revert v s HQ. induction HT as [|w t ->|w u v' s' vs t -> HQ' HT IH]; intros v s (_ & Hn & H);
      apply (Forall_impl _ path_char_letter) in H.
    + rewrite app_nil_r. left. now constructor.
    + right. exists s. split; [reflexivity|now constructor].
    + destruct (IH _ _ HQ') as [K|(p & E & K)].
      * left. apply (@gp_more s); assumption.
      * right. exists (s ++ [46%N] ++ p). rewrite E. split; [now rewrite <- !app_assoc|]. now apply (@gp_more s).
Qed.
Lemma h_utf8_same : forall (p : parser N (list N)) (P : list N -> Prop), hoare p (fun v s => v = s /\ P s) -> hoare (p_map_res p from_utf8) (fun v s => v = s /\ P s).
Proof.
  intros p P H. eapply h_map_res; [exact H|]. intros v s b [-> K] E. unfold from_utf8 in E. destruct (utf8_valid s); [|discriminate]. inv E. now split.
Qed.
Lemma h_spath : hoare path_p (fun v s => v = s /\ s_path s).
Proof. apply h_utf8_same, h_spath_raw. Qed.

Lemma h_int_text : hoare hinteger (fun v s => v = s /\ g_int s).
Proof.
  unfold hinteger. apply h_utf8_same. apply h_or; (eapply h_collect with (Q := fun _ s => g_int s); [|auto]).
  - eapply h_and with (P := fun v s => s = [v] /\ (49 <= v <= 57)%N) (Q := fun _ s => Forall digit s).
    + unfold p_elm_digit_1_9_ref, p_filter_not. eapply h_filter with (Q := fun v s => s = [v] /\ digit v).
      * unfold p_elm_digit_ref. apply h_elm_pred_ref. intros x Hx. split; [reflexivity|now apply is_digit_iff].
      * intros v s [-> H] K. split; [reflexivity|]. unfold digit in H. apply Bool.negb_true_iff in K. subst; destruct (N.eq_dec v 48) as [->|]; [discriminate K|]; lia.
    + apply h_digits0.
    + cbv beta. intros a b s t [-> H] K. right. now exists a, t.
  - apply h_elm_ref. now left.
Qed.
Lemma h_frac_text : hoare hfrac (fun v s => v = s /\ g_frac s).
Proof.
  unfold hfrac. apply h_utf8_same. eapply h_collect with (Q := fun _ s => g_frac s); [|auto].
  eapply h_and with (P := fun _ s => s = bs "."); [apply h_elm_ref; reflexivity|apply h_digits1|]. cbv beta. intros a b s t -> H. now exists t.
Qed.
Lemma h_exp_text : hoare hexp (fun v s => v = s /\ g_exp s).
Proof.
  unfold hexp. apply h_utf8_same. eapply h_collect with (Q := fun _ s => g_exp s); [|auto].
  eapply h_and with (P := fun _ s => exists e sg, s = e ++ sg /\ (e = bs "e" \/ e = bs "E") /\ maybe (fun u => u = bs "+" \/ u = bs "-") sg); [|apply h_digits1|].
  - eapply h_and with (P := fun _ s => s = bs "e" \/ s = bs "E") (Q := fun _ s => maybe (fun u => u = bs "+" \/ u = bs "-") s).
    + apply h_elm_of. cbn. intros x [<-|[<-|[]]]; auto.
    + apply h_opt_any. apply h_elm_of. cbn. intros x [<-|[<-|[]]]; auto.
    + cbv beta. intros a b s t H1 H2. now exists s, t.
  - cbv beta. intros a b s t (e & sg & -> & H1 & H2) H3. exists e, sg, t. now rewrite <- app_assoc.
Qed.

Section Scalars.
Variable D : Type.
Variable dec : list N -> option D.
Definition oget (o : option (list N)) : list N := match o with Some s => s | None => [] end.
Definition oall (P : list N -> Prop) (o : option (list N)) : Prop := match o with Some s => P s | None => True end.
Lemma h_opt_same : forall (p : parser N (list N)) (P : list N -> Prop), hoare p (fun v s => v = s /\ P s) -> hoare (p_opt p) (fun o s => s = oget o /\ oall P o).
Proof. intros p P H. eapply h_opt; [exact H| |now split]. intros v s [-> K]. now split. Qed.
Lemma h_number_text : hoare (p_and (p_and (p_and (p_opt (p_elm_ref (chr "-"))) hinteger) (p_opt hfrac)) (p_opt hexp))
  (fun x s => let '(m, i, f, e) := x in exists sg, s = sg ++ i ++ oget f ++ oget e /\ maybe (eq (bs "-")) sg /\ g_int i /\ oall g_frac f /\ oall g_exp e).
Proof.
  eapply h_and with (P := fun x s => let '(m, i, f) := x in exists sg, s = sg ++ i ++ oget f /\ maybe (eq (bs "-")) sg /\ g_int i /\ oall g_frac f).
  - eapply h_and with (P := fun x s => let '(m, i) := x in exists sg, s = sg ++ i /\ maybe (eq (bs "-")) sg /\ g_int i).
    + eapply h_and; [apply h_opt_any with (P := eq (bs "-")), h_elm_ref; reflexivity|apply h_int_text|].
      cbv beta. intros a b s t H1 [-> H2]. now exists s.
    + apply h_opt_same, h_frac_text.
    + cbv beta. intros [m i] f s t (sg & -> & H1 & H2) [-> H3]. exists sg. rewrite <- app_assoc. auto.
  - apply h_opt_same, h_exp_text.
  - cbv beta. intros [[m i] f] e s t (sg & -> & H1 & H2 & H3) [-> H4]. exists sg. rewrite <- !app_assoc. auto.
Qed.
Definition r_num (d : D) (s r : list N) : Prop := exists a n b, s = a ++ n ++ b /\ lay a (n ++ b ++ r) /\ s_num dec n d /\ lay b r.
Lemma rd_number : reads (number_value dec) r_num.
Proof.
  unfold number_value. eapply rd_map_panic.
  - unfold hnumber. eapply rd_spaced; [apply rd_hoare, h_number_text|]. intros v a s b r H1 H2 H3.
    refine (_ : (fun v s r => exists a n b, s = a ++ n ++ b /\ lay a (n ++ b ++ r) /\ lay b r /\ let '(m, i, f, e) := v in
      exists sg, n = sg ++ i ++ oget f ++ oget e /\ maybe (eq (bs "-")) sg /\ g_int i /\ oall g_frac f /\ oall g_exp e) v (a ++ s ++ b) r).
    exists a, s, b. repeat split; assumption.
  - cbv beta. intros [[[m i] f] e] s r d (a & n & b & -> & H1 & H2 & sg & -> & H3 & H4 & H5 & H6) E.
    exists a, (sg ++ i ++ oget f ++ oget e), b. repeat split; try assumption. exists sg, (i ++ oget f ++ oget e). repeat split; [assumption| |].
    + exists i, (oget f), (oget e). repeat split; [assumption| | |].
      * destruct f; [right; exact H5|now left].
      * destruct e; [right; exact H6|now left].
      * intros He. destruct e as [e|]; [|now destruct He]. destruct f as [f|]; [|destruct m; discriminate E]. cbn in H5. destruct H5 as (t & -> & _). discriminate.
    + destruct m, f, e; cbn in E |- *; rewrite ?app_nil_r; congruence.
Qed.
Lemma h_unit : hoare time_unit_p (fun u s => s_unit s u).
Proof.
  unfold time_unit_p, unit_ns, unit_us, unit_ms, unit_s, unit_m, unit_h, unit_d, unit_of, seq_a.
  repeat apply h_or; repeat apply h_attempt;
    (match goal with |- hoare (p_map _ (fun _ => ?u)) _ => eapply h_map with (Q := fun _ s => s_unit s u); [|auto] end);
    repeat apply h_or; try apply h_attempt; apply h_seqN; unfold s_unit; cbn; tauto.
Qed.
Lemma rd_duration : reads (duration_value dec) (fun v s r => exists a n g w d u, s = a ++ n ++ g ++ w /\ lay a (n ++ g ++ w ++ r) /\ s_num dec n d /\ lay g (w ++ r) /\ s_unit w u /\ v = CDur d u).
Proof.
  unfold duration_value, duration. eapply rd_map; [eapply rd_and; [apply rd_number|apply rd_hoare, h_unit|]|].
  - intros d u s t r (a & n & b & -> & H1 & H2 & H3) H4.
    refine (_ : (fun (x : D * time_unit) s r => exists a n g w, s = a ++ n ++ g ++ w /\ lay a (n ++ g ++ w ++ r) /\ s_num dec n (fst x) /\ lay g (w ++ r) /\ s_unit w (snd x)) (d, u) ((a ++ n ++ b) ++ t) r).
    exists a, n, b, t. rewrite <- !app_assoc. repeat split; assumption.
  - intros [d u] s r (a & n & g & w & H). exists a, n, g, w, d, u. tauto.
Qed.
End Scalars.

(** ** Strings *)
Lemma none_contains : forall l x, set_contains l x = false -> ~ In x l.
Proof. intros l x E H. apply set_contains_in in H. congruence. Qed.
Lemma h_hchar : hoare (p_map (p_or (p_none_ref_of (set_contains (bs "[]" ++ [13; 10; 92; 34; 39]%N))) escape_sequence) (fun x => x))
  (fun v s => exists i, s = item_text i /\ JsonFacts.plain i /\ s_item i /\ v = plain_value i).
Proof.
  eapply h_map with (Q := fun v s => exists i, s = item_text i /\ JsonFacts.plain i /\ s_item i /\ v = plain_value i); [|auto]. apply h_or.
  - apply h_none_ref. intros x Hx. exists (SRaw x). repeat split. exact (none_contains _ _ Hx).
  - unfold escape_sequence. eapply h_skip_left with (P := fun _ s => s = [92%N]); [apply h_elm_ref; reflexivity|apply h_special|].
    cbv beta. intros a b s t -> (c & -> & -> & Hc). now exists (SEsc c).
Qed.
Lemma item_ok_plain : forall i, s_item i -> item_ok false i.
Proof.
  intros [x|c|h] H; cbn in *; [|exact H|exact H]. unfold stop_char in H. cbn in H. repeat split; try (intros ->; apply H; tauto). discriminate.
Qed.
Lemma h_hchar_string : hoare hchar_string (fun v s => exists is, is <> [] /\ Forall JsonFacts.plain is /\ Forall s_item is /\
  s = flat_map item_text is /\ v = map plain_value is /\ utf8_valid s = true).
Proof.
  unfold hchar_string. eapply h_map_res with (Q := fun v s => exists is, is <> [] /\ Forall JsonFacts.plain is /\ Forall s_item is /\
    s = flat_map item_text is /\ v = map plain_value is).
  - eapply h_many1; [apply h_hchar| |].
    + intros v s (i & -> & Hp & _). destruct i; [discriminate|discriminate|contradiction].
    + intros vs s H Hne. assert (K : exists is, Forall JsonFacts.plain is /\ Forall s_item is /\ s = flat_map item_text is /\ vs = map plain_value is).
      { clear Hne. induction H as [|v s vs t (i & -> & Hp & Hi & ->) _ (is & K1 & K2 & -> & ->)]; [now exists []|].
        exists (i :: is). repeat split; try (now constructor); try assumption. }
      destruct K as (is & K1 & K2 & -> & ->). exists is. repeat split; try assumption. intros ->. now apply Hne.
  - intros v s b (is & H1 & H2 & H3 & -> & ->) E. exists is. unfold from_utf8 in E.
    destruct (utf8_valid (map plain_value is)) eqn:Ev; [|discriminate]. inv E. repeat split; try assumption.
    pose proof (plain_valid [] H2 (Forall_impl _ item_ok_plain H3)) as V. cbn [app] in V. congruence.
Qed.
Definition hpieces : parser N (list N) := p_or (p_attempt hchar_string) (utf16_string true).
Definition hbody (vs : list (list N)) (s : list N) : Prop := exists is, (vs <> [] -> is <> []) /\ Forall s_item is /\ s = flat_map item_text is /\
  List.concat vs = items_value utf8_encode is /\ utf8_valid s = true.
Lemma steps_hbody : forall inp pos vs l, steps hpieces inp pos vs l -> pos <= length inp ->
  pos + l <= length inp /\ hbody vs (firstn l (skipn pos inp)).
Proof.
  intros inp pos vs l H. induction H as [pos|pos v n vs m H H' IH]; intros Ho.
  - split; [lia|]. exists []. repeat split; [congruence|constructor].
  - unfold hpieces, p_or, p_attempt in H. destruct (hchar_string inp pos) as [v1 n1|e c| |] eqn:E1.
    + inv H. destruct (h_success h_hchar_string Ho E1) as [B (is & I1 & I2 & I3 & Es & -> & Iv)].
      destruct (IH B) as [B2 (js & _ & J1 & Ej & J2 & J3)]. split; [lia|]. exists (is ++ js).
      rewrite firstn_split. repeat split.
      * intros _ E. apply app_eq_nil in E. tauto.
      * apply Forall_app. now split.
      * rewrite flat_map_app. congruence.
      * cbn [List.concat]. rewrite J2. now rewrite plain_items_value.
      * rewrite utf8_valid_app by exact Iv. exact J3.
    + destruct c; cbn in H.
      all: destruct (h_success (h_utf16_string true) Ho H) as [B (hs & I1 & I2 & Es & ->)];
      destruct (IH B) as [B2 (js & _ & J1 & Ej & J2 & J3)]; split; [lia|]; exists (map SUni hs ++ js);
      assert (Hn : no_uni js) by
      (destruct js as [|[x|c|h] js]; [exact Logic.I|exact (fun K => K)|exact (fun K => K)|]; exfalso;
        unfold utf16_string, p_map in H; destruct (p_many1 (utf16_char true) inp pos) as [us k|e' c'| |] eqn:Em; try discriminate; inv H;
        unfold p_many1 in Em; apply many_none_success in Em; [|eapply h_bounded, h_utf16_char|exact Ho|exact Logic.I];
        destruct Em as (_ & _ & _ & [(e'' & c'' & F)|F]); [|now apply F];
        inv J1; cbn [flat_map] in Ej; destruct (@skipn_split _ _ _ _ _ B2 Ej) as (rest & Ei & El);
        pose proof (a_utf16_char true rest ltac:(eassumption) (firstn (pos + n) inp)) as A; rewrite <- Ei, El in A; congruence);
      rewrite firstn_split; repeat split;
      [intros _ E; apply app_eq_nil in E; destruct hs; [congruence|now destruct E]
      |apply Forall_app; split; [|exact J1]; apply Forall_forall; intros i Hi; apply in_map_iff in Hi; destruct Hi as (h & <- & Hh);
        now apply (proj1 (Forall_forall _ _) I2)
      |rewrite flat_map_app; congruence
      |cbn [List.concat]; rewrite J2; now rewrite uni_items_value with (n := length hs)
      |rewrite Es, uni_valid by assumption; exact J3].
    + discriminate.
    + discriminate.
Qed.
Lemma h_pieces_bounded : bounded hpieces.
Proof.
  eapply h_bounded with (Q := fun _ _ => True). apply h_or; [apply h_attempt; eapply h_weaken; [apply h_hchar_string|auto]|eapply h_weaken; [apply h_utf16_string|auto]].
Qed.
Lemma rd_body : reads string_surround (fun vs s _ => s_body s (List.concat vs)).
Proof.
  intros pre l vs n E. unfold string_surround in E. fold hpieces in E. unfold p_many1 in E.
  assert (Ho : length pre <= length (pre ++ l)) by (rewrite app_length; lia).
  apply many_none_success in E; [|apply h_pieces_bounded|exact Ho|exact Logic.I]. destruct E as (E & Hm & _).
  destruct (steps_hbody E Ho) as [B (is & H1 & H2 & H3 & H4 & H5)].
  rewrite skipn_app, skipn_all, Nat.sub_diag in *. cbn [skipn app] in *. rewrite app_length in B.
  exists (firstn n l), (skipn n l). split; [now rewrite firstn_skipn|]. split; [apply firstn_length_le; lia|]. exists is. repeat split; try assumption.
  apply H1. intros ->. cbn in Hm. lia.
Qed.
Lemma rd_quote : forall q, reads (spaced (p_elm_ref q)) (fun _ s r => exists a b, s = a ++ [q] ++ b /\ lay a ([q] ++ b ++ r) /\ lay b r).
Proof.
  intros q. eapply rd_spaced; [apply rd_hoare; eapply h_elm_ref with (R := fun _ s => s = [q]); reflexivity|].
  cbv beta. intros v a s b r H1 -> H2. exists a, b. auto.
Qed.
Lemma rd_string : reads hstring (fun v s r => s_str s r v).
Proof.
  unfold hstring. eapply rd_map with (Q := fun vs s r => s_str s r (List.concat vs)); [|auto].
  assert (K : forall q, q = 34%N \/ q = 39%N -> reads (p_surround (spaced (p_elm_ref q)) string_surround (spaced (p_elm_ref q))) (fun vs s r => s_str s r (List.concat vs))).
  { intros q Hq. eapply rd_surround; [apply rd_quote|apply rd_body|apply rd_quote|]. cbv beta.
    intros _ vs _ s1 s2 s3 r (a & b & -> & H1 & H2) H3 (c & d & -> & H4 & H5). repeat rewrite <- app_assoc in *.
    replace (a ++ [q] ++ b ++ s2 ++ c ++ [q] ++ d) with (a ++ [q] ++ b ++ s2 ++ c ++ [q] ++ d) by reflexivity. now constructor. }
  repeat apply rd_or; [apply rd_attempt, (K 34%N); auto|apply rd_attempt, (K 39%N); auto|].
  eapply rd_weaken; [apply rd_body|]. intros. now constructor.
Qed.
Lemma rd_key : reads key_p (fun k s r => s_key s r k).
Proof.
  unfold key_p. eapply rd_spaced with (Q := fun k s r => s_path s /\ k = s \/ s_str s r k).
  - apply rd_or.
    + apply rd_attempt. eapply rd_weaken; [apply rd_hoare, h_spath|]. intros v s r [-> H]. auto.
    + eapply rd_weaken; [apply rd_string|]. auto.
  - intros k a s b r H1 H2 H3. now constructor.
Qed.
Lemma rd_comma : reads comma (fun _ s r => s_comma s r).
Proof. eapply rd_weaken; [apply rd_quote|]. intros v s r (a & b & -> & H1 & H2). now constructor. Qed.
Lemma rd_seq : forall w, reads (spaced (p_seqN w)) (fun _ s r => exists a b, s = a ++ w ++ b /\ lay a (w ++ b ++ r) /\ lay b r).
Proof.
  intros q. eapply rd_spaced; [apply rd_hoare; eapply h_seqN with (R := fun _ s => s = q); reflexivity|].
  cbv beta. intros v a s b r H1 -> H2. exists a, b. auto.
Qed.
Lemma rd_reference : reads reference (fun mn s r => s_ref s r (snd mn) (fst mn)).
Proof.
  unfold reference. eapply rd_surround; [apply rd_seq| |apply rd_seq|].
  - apply rd_hoare. eapply h_and with (P := fun (b : bool) s => s = if b then bs "?" else []); [|apply h_utf8_same, h_spath_raw|].
    + eapply h_map with (Q := fun o s => s = match o with Some _ => bs "?" | None => [] end); [|now intros [v|] s ->].
      eapply h_opt with (P := fun _ s => s = bs "?"); [apply h_elm_ref; reflexivity|auto|reflexivity].
    + cbv beta. intros b p s t -> [-> H].
      refine (_ : (fun (x : bool * list N) s => s = (if fst x then bs "?" else []) ++ snd x /\ s_path (snd x)) (b, t) ((if b then bs "?" else []) ++ t)). now split.
  - cbv beta. intros _ [o p] _ s1 s2 s3 r (a & b & -> & H1 & H2) [-> H3] (c & d & -> & H4 & H5). cbn [fst snd] in *.
    repeat rewrite <- app_assoc in *. now constructor.
Qed.

(** ** Values *)
Section Values.
Variable D : Type.
Variable dec : list N -> option D.
Notation cv := (cv D).
Notation key := (list N).
Lemma given_values : forall (ps : list (key * cv)) k, given ps k = values_of ps k.
Proof.
  intros ps k. unfold given. induction ps as [|[k' v] ps IH]; [reflexivity|]. cbn [filter values_of fst].
  destruct (list_eq_dec N.eq_dec k' k), (list_eq_dec N.eq_dec k k'); try congruence. cbn. now rewrite IH.
Qed.
Lemma joined_braces : forall ps : list (key * cv), joined (@push D) ps (obj_fold ps).
Proof.
  intros ps. split.
  - unfold obj_fold. assert (K : forall l m, NoDup (keys m) -> NoDup (keys (fold_left (@obj_insert D) l m))).
    { induction l as [|e l IH]; intros m H; [exact H|]. cbn. apply IH. unfold obj_insert. destruct (hm_get m (fst e)); now apply nodup_set. }
    apply K. constructor.
  - intros k. now rewrite obj_fold_get, given_values.
Qed.
Lemma joined_root : forall ps : list (key * cv), joined (@merge_with D) ps (top_fold ps).
Proof.
  intros ps. split.
  - unfold top_fold. assert (K : forall l m, NoDup (keys m) -> NoDup (keys (fold_left (@top_insert D) l m))).
    { induction l as [|e l IH]; intros m H; [exact H|]. cbn. apply IH. unfold top_insert. destruct (hm_get m (fst e)); now apply nodup_set. }
    apply K. constructor.
  - intros k. now rewrite top_fold_get, given_values.
Qed.
Definition q_val (v : cv) (s r : list N) : Prop := s_val dec s r v.
Definition q_block (v : cv) (s r : list N) : Prop := s_block dec s r v.
Definition q_prop (kv : key * cv) (s r : list N) : Prop := s_member dec s r (fst kv) (snd kv).

Lemma rd_string_cv : reads (@string_cv D) (fun v s r => exists x, v = CStr x /\ s_str s r x).
Proof. unfold string_cv. eapply rd_map; [apply rd_string|]. cbv beta. eauto. Qed.
Lemma rd_reference_cv : reads (@reference_cv D) (fun v s r => exists p o, v = CRef None p o /\ s_ref s r p o).
Proof. unfold reference_cv. eapply rd_map; [apply rd_reference|]. cbv beta. eauto. Qed.
Lemma rd_enumeration : reads (@enumeration_cv D) q_val.
Proof.
  unfold enumeration_cv. eapply rd_map; [eapply rd_many1; [apply rd_or|]|].
  - apply rd_attempt. eapply rd_weaken; [apply rd_string_cv|]. intros v s r H.
    refine (_ : (fun v s r => (exists x, v = CStr x /\ s_str s r x) \/ (exists p o, v = CRef None p o /\ s_ref s r p o)) v s r). now left.
  - eapply rd_weaken; [apply rd_reference_cv|]. cbv beta. auto.
  - intros vs s r Hn H. refine (_ : (fun vs s r => vs <> [] /\ s_enum s r vs) vs s r). split; [exact Hn|]. clear Hn.
    induction H as [r|v s vs t r [(x & -> & H)|(p & o & -> & H)] _ IH]; [constructor| |]; now constructor.
  - cbv beta. intros vs s r [H1 H2]. now apply sv_enum.
Qed.
Lemma lay_front : forall a s r v, lay a (s ++ r) -> s_val dec s r v -> s_val dec (a ++ s) r v.
Proof. intros a s r v H1 H2. rewrite <- (app_nil_r s). apply sv_lay; [exact H1|exact H2|constructor]. Qed.
Lemma rd_simple : reads (simple_cv dec) q_val.
Proof.
  unfold simple_cv. eapply rd_spaced with (Q := q_val); [|intros v a s b r H1 H2 H3; now apply sv_lay].
  assert (W : forall w v, (forall r, s_val dec w r v) -> reads (p_attempt (p_map (p_seqN w) (fun _ => v))) q_val).
  { intros w v H. apply rd_attempt. eapply rd_map; [apply rd_hoare; eapply h_seqN with (R := fun _ s => s = w); reflexivity|]. intros _ s r ->. apply H. }
  repeat apply rd_or; try (apply W; constructor).
  - apply rd_attempt. eapply rd_weaken; [apply rd_duration|]. cbv beta. intros v s r (a & n & g & w & d & u & -> & H1 & H2 & H3 & H4 & ->).
    apply lay_front; [now rewrite <- !app_assoc|]. now constructor.
  - apply rd_attempt. eapply rd_map; [apply rd_number|]. intros d s r (a & n & b & -> & H1 & H2 & H3). apply sv_lay; [exact H1|now constructor|exact H3].
  - eapply rd_weaken; [apply rd_string_cv|]. cbv beta. intros v s r (x & -> & H). now constructor.
Qed.
Section Step.
Variable value : parser N cv.
Variable prop : parser N (key * cv).
Hypothesis Hv : reads value q_val.
Hypothesis Hp : reads prop q_prop.
Lemma seps_elems : forall vs u r, Seps q_val (fun (_ : N) => s_comma) vs u r -> forall v s, q_val v s (u ++ r) -> s_elems dec (s ++ u) r (v :: vs).
Proof.
  intros vs u r H. induction H as [r|w t r Hc|w t v' s' vs u r Hc Hv' H IH]; intros v s Hq.
  - rewrite app_nil_r. now constructor.
  - now constructor.
  - rewrite <- !app_assoc in Hq. apply se_more; [now rewrite <- app_assoc|now rewrite <- app_assoc|now apply IH|discriminate].
Qed.
Lemma rd_array : reads (@array_cv D value) q_block.
Proof.
  unfold array_cv. eapply rd_map; [eapply rd_surround; [apply rd_quote| |apply rd_quote|]|].
  - eapply rd_many0_sep; [apply rd_lazy, Hv|apply rd_comma| |].
    + intros r. refine (_ : (fun vs s r => s_elems dec s r vs) [] [] r). constructor.
    + cbv beta. intros v s vs t r H1 H2. now apply seps_elems.
  - cbv beta. intros _ vs _ s1 s2 s3 r (a & b & -> & H1 & H2) H3 (c & d & -> & H4 & H5).
    refine (_ : (fun vs s r => s_block dec s r (CArr vs)) vs ((a ++ [chr "["] ++ b) ++ s2 ++ c ++ [chr "]"] ++ d) r).
    repeat rewrite <- app_assoc in *. now apply sb_arr.
  - cbv beta. auto.
Qed.
Lemma seps_members : forall ps u r, Seps q_prop (fun (_ : option N) s r => s = [] \/ s_comma s r) ps u r -> forall e s, q_prop e s (u ++ r) -> s_members dec (s ++ u) r (e :: ps).
Proof.
  intros ps u r H. induction H as [r|w t r Hc|w t e' s' ps u r Hc He' H IH]; intros [k v] s Hq.
  - rewrite app_nil_r. now constructor.
  - destruct Hc as [->|Hc]; [rewrite app_nil_r; now constructor|]. now constructor.
  - rewrite <- !app_assoc in Hq. apply sm_more; [now rewrite <- app_assoc| |now apply IH|discriminate]. destruct Hc as [->|Hc]; [now left|right; now rewrite <- app_assoc].
Qed.
Lemma rd_object : reads (@object_cv D prop) q_block.
Proof.
  unfold object_cv. eapply rd_map; [eapply rd_surround; [apply rd_quote| |apply rd_quote|]|].
  - eapply rd_many0_sep with (S := fun (_ : option N) s r => s = [] \/ s_comma s r); [apply rd_lazy, Hp|eapply rd_opt; [apply rd_comma|auto|auto]| |].
    + intros r. refine (_ : (fun vs s r => s_members dec s r vs) [] [] r). constructor.
    + cbv beta. intros v s vs t r H1 H2. now apply seps_members.
  - cbv beta. intros _ ps _ s1 s2 s3 r (a & b & -> & H1 & H2) H3 (c & d & -> & H4 & H5).
    refine (_ : (fun ps s r => s_block dec s r (CObj (obj_fold ps))) ps ((a ++ [chr "{"] ++ b) ++ s2 ++ c ++ [chr "}"] ++ d) r).
    repeat rewrite <- app_assoc in *. apply sb_obj with (ps := ps); try assumption. apply joined_braces.
  - cbv beta. auto.
Qed.
Lemma rd_property : reads (@property_step D value prop) q_prop.
Proof.
  unfold property_step. eapply rd_and; [apply rd_key| |].
  - repeat apply rd_or.
    + apply rd_attempt. eapply rd_skip_left with (P := fun _ s _ => s = bs "=" \/ s = bs ":"); [|apply rd_lazy, Hv|].
      * apply rd_hoare. eapply h_discard; [apply h_elm_ref_of|].
        { intros x Hx. apply set_contains_in in Hx. refine (_ : (fun (_ : N) s => s = bs "=" \/ s = bs ":") x [x]). cbn in *. destruct Hx as [<-|[<-|[]]]; auto. }
        { cbv beta. auto. }
      * cbv beta. intros a v s t r H1 H2.
        refine (_ : (fun v s r => (exists c t, s = c ++ t /\ (c = bs "=" \/ c = bs ":") /\ s_val dec t r v) \/ s_block dec s r v) v (s ++ t) r). left. now exists s, t.
    + apply rd_attempt. eapply rd_weaken; [apply rd_object|]. cbv beta. auto.
    + eapply rd_weaken; [apply rd_array|]. cbv beta. auto.
  - cbv beta. intros k v s t r H1 [(c & u & -> & H2 & H3)|H2]; unfold q_prop; cbn [fst snd].
    + rewrite <- app_assoc in H1. now constructor.
    + now constructor.
Qed.
Lemma rd_value : reads (value_step dec value prop) q_val.
Proof.
  unfold value_step. eapply rd_spaced with (Q := q_val); [|intros v a s b r H1 H2 H3; now apply sv_lay].
  repeat apply rd_or; try apply rd_attempt.
  - eapply rd_weaken; [apply rd_array|]. intros. now apply sv_block.
  - eapply rd_weaken; [apply rd_object|]. intros. now apply sv_block.
  - eapply rd_weaken; [apply rd_reference_cv|]. cbv beta. intros v s r (p & o & -> & H). now constructor.
  - apply rd_simple.
  - apply rd_enumeration.
Qed.
Lemma rd_config : reads (@config_step D value prop) (fun vs s r => r = [] -> forall a, lay a s -> s_doc dec (a ++ s) vs).
Proof.
  unfold config_step. repeat apply rd_or.
  - apply rd_attempt. eapply rd_map; [eapply rd_many1; [apply rd_property|]|].
    + intros ps s r Hn H. refine (_ : (fun ps s r => r = [] -> ps <> [] /\ s_root dec s ps) ps s r). intros ->. split; [exact Hn|]. clear Hn.
      remember [] as r eqn:Er. induction H as [r|[k v] s ps t r H1 _ IH]; [constructor|]. subst r. rewrite app_nil_r in H1. constructor; [exact H1|auto].
    + cbv beta. intros ps s r H -> a Ha. destruct (H eq_refl) as [H1 H2]. apply sd_root with (ps := ps); try assumption. apply joined_root.
  - apply rd_attempt. eapply rd_many1.
    + unfold include_cv. eapply rd_map with (Q := fun mp s _ => exists m p, mp = (m, p) /\ s = bs "include " ++ m ++ bs "(" ++ [34%N] ++ p ++ [34%N] ++ bs ")" /\ (m = bs "file" \/ m = bs "url") /\ s_path p).
      * apply rd_hoare. eapply h_and with (P := fun m s => s = bs "include " ++ m /\ (m = bs "file" \/ m = bs "url")) (Q := fun p s => s = bs "(" ++ [34%N] ++ p ++ [34%N] ++ bs ")" /\ s_path p).
        { eapply h_skip_left with (P := fun _ s => s = bs "include ") (Q := fun m s => m = s /\ (s = bs "file" \/ s = bs "url")).
          - eapply h_skip_left with (P := fun _ s => s = bs "include") (Q := fun _ s => s = [32%N]); [apply h_seqN; reflexivity|apply h_elm; reflexivity|]. cbv beta. now intros _ _ s t -> ->.
          - unfold include_method. apply h_utf8_same. eapply h_collect with (Q := fun _ s => s = bs "file" \/ s = bs "url"); [|auto].
            apply h_or; apply h_seqN; auto.
          - cbv beta. intros _ m s t -> [-> H]. split; [reflexivity|exact H]. }
        { eapply h_surround with (L := fun _ s => s = bs "(" ++ [34%N]) (R := fun _ s => s = [34%N] ++ bs ")"); [apply h_seqN; reflexivity|apply h_spath|apply h_seqN; reflexivity|].
          cbv beta. intros _ p _ s t u -> [-> H] ->. split; [now rewrite <- !app_assoc|exact H]. }
        { cbv beta. intros m p s t [-> H1] [-> H2]. exists m, p. repeat split; assumption. }
      * intros mp s r H. refine (_ : (fun v s (_ : list N) => exists m p, v = CIncl m ([34%N] ++ p ++ [34%N]) /\ s = bs "include " ++ m ++ bs "(" ++ [34%N] ++ p ++ [34%N] ++ bs ")" /\ (m = bs "file" \/ m = bs "url") /\ s_path p) (CIncl (fst mp) ([34%N] ++ snd mp ++ [34%N])) s r).
        destruct H as (m & p & -> & H). exists m, p. split; [reflexivity|exact H].
    + intros vs s r Hn H -> a Ha. apply sd_includes; [exact Ha| |exact Hn]. clear Hn Ha.
      induction H as [r|v s vs t r (m & p & -> & -> & H1 & H2) _ IH]; [constructor|].
      replace ((bs "include " ++ m ++ bs "(" ++ [34%N] ++ p ++ [34%N] ++ bs ")") ++ t) with (bs "include " ++ m ++ bs "(" ++ [34%N] ++ p ++ [34%N] ++ bs ")" ++ t) by now rewrite <- !app_assoc.
      now constructor.
  - eapply rd_many0 with (Q := q_block).
    + apply rd_or; [apply rd_attempt, rd_object|apply rd_array].
    + intros vs s r H Er a Ha. apply sd_blocks; [exact Ha|]. clear Ha. induction H as [r|v s vs t r H1 _ IH]; [constructor|]. subst r. rewrite app_nil_r in H1.
      constructor; [exact H1|auto].
Qed.
End Step.
Lemma rd_fuel : forall n, reads (value_fuel dec n) q_val /\ reads (property_fuel dec n) q_prop.
Proof.
  induction n as [|n [IH1 IH2]].
  - split; intros pre l v n E; discriminate.
  - split; [apply (rd_value IH1 IH2)|apply (rd_property IH1 IH2)].
Qed.
Lemma hocon_sound : forall t vs n, hocon_p dec t 0 = Success vs n -> n = length t /\ s_doc dec t vs.
Proof.
  intros t vs n E. unfold hocon_p, hocon_fuel in E. destruct (rd_fuel (S (length t))) as [H1 H2].
  assert (R : reads (p_skip_right (p_skip_left space_or_comment (config_step (value_fuel dec (S (length t))) (property_fuel dec (S (length t))))) p_end)
    (fun vs s r => r = [] /\ s_doc dec s vs)).
  { eapply rd_skip_right; [eapply rd_skip_left; [apply rd_soc|apply (rd_config H1 H2)|]|apply rd_end|].
    - cbv beta. intros _ ws s u r Ha Hd. refine (_ : (fun ws s r => r = [] -> s_doc dec s ws) ws (s ++ u) r). intros ->. rewrite app_nil_r in Ha. auto.
    - cbv beta. intros ws _ s u r Hd [-> ->]. split; [reflexivity|]. rewrite app_nil_r. auto. }
  destruct (R [] t vs n E) as (s & r & -> & L & -> & Hd). rewrite app_nil_r in *. auto.
Qed.
End Values.
