(** Which texts the URI parser accepts, with no proviso: C118; and which URIs assembled from their parts can be read back: C119.
    (uri/src/models: uri.rs 72-84 [Uri::new] and 33-65 [Display], authority.rs 42-48, hier_part.rs 28-38, path.rs 44-104, query.rs 46-48:
    the constructors store what they are given.)
    The standard library's reader and printer of IPv6 addresses are those of UriStd.v. *)
From Verif Require HoconLookup.
From Verif Require Import PropsE PropsN PropsP PropsR PropsAD.
From Verif Require Import Base Core Comb Closure RepFacts LitFacts Hoare Weak Runs Reads Text Uri UriSpec UriFacts UriComplete UriV6 UriStd.
Set Implicit Arguments.
Local Open Scope string_scope.
Local Open Scope nat_scope.
Local Open Scope list_scope.

(** ** Specification *)
(** A host can be read at the beginning of [t]. *)
Definition host_first (t : bytes) : Prop := exists h w r, g_host v6_text h w /\ t = w ++ r.
(** [w] is the user information, with its '@', at the beginning of [t]; nothing if there is none. *)
Definition user_first (w t : bytes) : Prop :=
  (exists u x r, g_user u x /\ w = x ++ bs "@" /\ t = w ++ r) \/ (w = [] /\ forall u x r, g_user u x -> t <> x ++ bs "@" ++ r).
(** An authority can be read at the beginning of [t]. *)
Definition authority_first (t : bytes) : Prop := exists w r, user_first w t /\ t = w ++ r /\ host_first r.
(** A URI whose parts keep apart once they are written one after the other: a registered name does not start with an IPv4
    address, and no authority can be read after the two slashes that a path without authority starts with. *)
Definition apart (u : uri) : Prop :=
  match u_hier u with
  | Some (mk_hier (Some a) _) => plain_host (au_host a)
  | Some (mk_hier None p) => forall t, show_path p = bs "//" ++ t -> ~ authority_first t
  | None => True
  end.

(** ** Totality *)
Lemma total : forall A (p : parser N A) Q, hoare p Q -> forall pre l,
  (exists v s r, l = s ++ r /\ Q v s /\ p (pre ++ l) (length pre) = Success v (length s)) \/ (exists e c, p (pre ++ l) (length pre) = Failure e c).
Proof.
  intros A p Q H pre l. pose proof (H (pre ++ l) (length pre) ltac:(rewrite app_length; lia)) as K.
  destruct (p (pre ++ l) (length pre)) as [v n|e c| |] eqn:E; [left|right; eauto|contradiction|contradiction].
  destruct (@rd_hoare _ _ _ _ H _ _ _ _ E) as (s & r & -> & <- & HQ). eauto 7.
Qed.
Lemma fails_none : forall A (p : parser N A) Q l, hoare p Q -> (forall v s r, Q v s -> l <> s ++ r) ->
  forall pre, exists e c, p (pre ++ l) (length pre) = Failure e c.
Proof.
  intros A p Q l H K pre. destruct (total H pre l) as [(v & s & r & -> & HQ & _)|F]; [|exact F]. exfalso. eapply K; [exact HQ|reflexivity].
Qed.
Lemma opt_none_any : forall A (p : parser N A) l, (forall pre, exists e c, p (pre ++ l) (length pre) = Failure e c) -> acc (p_opt p) [] l None.
Proof. intros A p l H. apply a_or2; [|apply a_successful]. cbn [app]. apply r_map. now apply r_attempt_any. Qed.

(** ** Reading a host *)
Lemma hex_dec : forall x, hexdig x \/ ~ hexdig x.
Proof. intros x. destruct (is_ascii_hex_digit x) eqn:E; [left; now apply hexdig_iff|right; intros K; apply hexdig_iff in K; congruence]. Qed.
Lemma reg_dec : forall x, c_reg x \/ ~ c_reg x.
Proof. intros x. destruct (b_reg x) eqn:E; [left; now apply reg_iff|right; intros K; apply reg_iff in K; congruence]. Qed.
(** The pieces of a registered name at the beginning of a text. *)
Definition name_stop (l : bytes) : Prop :=
  match l with [] => True | x :: r => ~ c_reg x /\ (x = chr "%" -> match r with a :: b :: _ => ~ (hexdig a /\ hexdig b) | _ => True end) end.
Lemma name_run : forall n l, length l <= n -> exists w r, l = w ++ r /\ enc c_reg w /\ name_stop r.
Proof.
  induction n as [|n IH]; intros l L.
  - destruct l; [|cbn in L; lia]. exists [], []. repeat split. constructor.
  - destruct l as [|x l]; [exists [], []; repeat split; constructor|]. cbn in L. destruct (reg_dec x) as [Hx|Hx].
    + destruct (IH l ltac:(lia)) as (w & r & -> & Hw & Hr). exists (x :: w), r. split; [reflexivity|]. split; [now apply enc_chr|exact Hr].
    + destruct (N.eq_dec x (chr "%")) as [->|Ne].
      * destruct l as [|a [|b l]]; [exists [], [chr "%"]; repeat split; [constructor|exact Hx]|exists [], [chr "%"; a]; repeat split; [constructor|exact Hx]|].
        destruct (hex_dec a) as [Ha|Ha]; [destruct (hex_dec b) as [Hb|Hb]|].
        -- cbn in L. destruct (IH l ltac:(lia)) as (w & r & -> & Hw & Hr). exists (chr "%" :: a :: b :: w), r. split; [reflexivity|]. split; [now apply enc_pct|exact Hr].
        -- exists [], (chr "%" :: a :: b :: l). split; [reflexivity|]. split; [constructor|]. split; [exact Hx|]. intros _ [_ K]. contradiction.
        -- exists [], (chr "%" :: a :: b :: l). split; [reflexivity|]. split; [constructor|]. split; [exact Hx|]. intros _ [K _]. contradiction.
      * exists [], (x :: l). split; [reflexivity|]. split; [constructor|]. split; [exact Hx|]. intros K. contradiction.
Qed.
Lemma r_piece : forall l, name_stop l -> rej (p_or (p_or (p_attempt unreserved) (p_attempt pct_encoded)) sub_delims) l false.
Proof.
  intros l H. destruct l as [|x l]; [now apply p_reg|]. destruct H as [Hx Hp]. destruct (N.eq_dec x (chr "%")) as [->|Ne].
  - specialize (Hp eq_refl). apply r_or; [apply r_or|].
    + eapply r_attempt. apply s_unreserved. intros K. apply Hx. now left.
    + apply r_attempt_any. eapply fails_none; [apply h_pct|]. intros v s r [_ (a & b & -> & Ha & Hb)] E. cbn in E. inv E. cbn in Hp. now apply Hp.
    + apply s_sub. intros K. apply Hx. now right.
  - apply p_reg. now split.
Qed.
Lemma a_run : forall w r, enc c_reg w -> w <> [] -> name_stop r -> acc reg_name w r (RegName w).
Proof.
  intros w r H Hne Hs. unfold reg_name. apply a_name. eapply a_map_eq; [|reflexivity]. apply a_to_string; [|eapply enc_ascii; [apply reg_small|exact H]].
  destruct (enc_chain r p_reg H) as (vs & K & L). eapply a_collect, a_many1; [exact K|now apply r_piece|auto].
Qed.
Lemma digit_reg : forall x, digit x -> c_reg x.
Proof. intros x H. left. right. now left. Qed.
Lemma host_reads : forall t, host_first t -> exists h w r, t = w ++ r /\ acc (host std_v6_parse) w r h.
Proof.
  intros t (h & w & r & G & ->).
  assert (E : forall w, enc c_reg w -> w <> [] -> exists h w' r', w ++ r = w' ++ r' /\ acc (host std_v6_parse) w' r' h).
  { clear G w. intros w He Hne. set (t := w ++ r).
    assert (Hl : rej (p_attempt (p_map (ip_literal_p std_v6_parse) IpLiteral)) t false).
    { apply r_literal_hd. unfold t. destruct He as [|x s Hx _|]; [congruence| |discriminate]. cbn. intros ->. revert Hx. lit_class. }
    destruct (starts_dec t) as [K|K].
    - destruct (ipv4_reads_start K) as (a & s & q & Es & _ & A). exists (Ipv4Address a), s, q. split; [exact Es|]. unfold host. apply a_name, a_or1, a_or2.
      + now rewrite <- Es.
      + apply a_attempt. eapply a_map_eq; [|reflexivity]. rewrite <- (app_nil_r q). now apply A.
    - destruct (@name_run (length t) t (le_n _)) as (s & q & Es & Hs & Hq). exists (RegName s), s, q. split; [exact Es|].
      unfold host. apply a_name, a_or2.
      + rewrite <- Es. apply r_or; [exact Hl|]. rewrite <- (app_nil_r t). now apply r_ipv4.
      + apply a_run; [exact Hs| |exact Hq]. intros ->. cbn in Es. subst q. unfold t in Hq.
        destruct He as [|x s Hx _|a b s Ha Hb _]; [congruence| |].
        * destruct Hq as [Hq _]. contradiction.
        * destruct Hq as [_ Hq]. cbn in Hq. apply Hq; auto. }
  inversion G; subst.
  - eapply E; assumption.
  - apply E; [eapply ipv4_enc; eassumption|]. apply ipv4_chars in H. apply H.
  - exists (IpLiteral (Ipv6Address a)), (bs "[" ++ s ++ bs "]"), r. split; [reflexivity|]. unfold host. apply a_name, a_or1, a_or1, a_attempt.
    eapply a_map_eq; [|reflexivity]. now apply a_literal.
  - eexists _, _, r. split; [reflexivity|]. unfold host. apply a_name, a_or1, a_or1, a_attempt.
    eapply a_map_eq; [|reflexivity]. apply a_literal. exact G.
Qed.

(** ** Reading an authority *)
Definition at_user := p_skip_right user_info_p (p_elm_ref (chr "@")).
Lemma h_at_user : hoare at_user (fun u s => exists x, g_user u x /\ s = x ++ bs "@").
Proof.
  eapply h_weaken; [apply h_left_both; [apply h_user|apply h_elm_ref_e]|]. intros v s H. parts. eauto.
Qed.
Lemma a_at_user : forall u x r, g_user u x -> acc at_user (x ++ bs "@") r u.
Proof. intros u x r H. eapply a_skip_right; [|apply a_elm_ref]. apply a_user; [exact H|cbn; lit_stop|]. intros _. cbn. left. discriminate. Qed.
Lemma a_opt_user : forall w r, user_first w (w ++ r) -> exists o, acc (p_opt at_user) w r o.
Proof.
  intros w r [(u & x & r' & G & -> & E)|[-> H]].
  - exists (Some u). apply a_opt. now apply a_at_user.
  - exists None. apply opt_none_any. eapply fails_none; [apply h_at_user|]. intros v s q (x & G & ->). cbn [app] in H. rewrite <- app_assoc. eapply H, G.
Qed.
Lemma port_total : forall pre l, exists o n, p_opt (p_skip_left (p_elm_ref (chr ":")) port) (pre ++ l) (length pre) = Success o n.
Proof.
  intros pre l.
  assert (H : hoare (p_skip_left (p_elm_ref (chr ":")) port) (fun _ _ => True)).
  { eapply h_weaken; [apply h_right_both; [apply h_elm_ref_e|apply h_port]|]. auto. }
  destruct (total H pre l) as [(v & s & r & -> & _ & E)|(e & c & E)]; unfold p_opt, p_or, p_map, p_attempt; rewrite E; unfold with_uncommitted; [|destruct c]; do 2 eexists; reflexivity.
Qed.
Lemma authority_reads : forall l, authority_first l -> forall pre, exists a n, authority_p std_v6_parse (pre ++ l) (length pre) = Success a n.
Proof.
  intros l (w & r & U & -> & H) pre. destruct (a_opt_user _ U) as (o & A). destruct (host_reads H) as (h & x & q & -> & B).
  pose proof (a_and A B pre) as E. rewrite <- app_assoc in E. unfold authority_p, p_map, p_and at 1. fold at_user. rewrite E.
  destruct (port_total (pre ++ w ++ x) q) as (po & n & P).
  replace ((pre ++ w ++ x) ++ q) with (pre ++ w ++ x ++ q) in P by now rewrite <- !app_assoc.
  replace (length pre + length (w ++ x)) with (length (pre ++ w ++ x)) by now rewrite !app_length.
  rewrite P. cbn. eauto.
Qed.
(** What an authority that was read begins with. *)
Lemma rd_user : reads (p_opt at_user) (fun _ w r => user_first w (w ++ r)).
Proof.
  intros pre l v n E. unfold p_opt, p_or, p_map, p_attempt in E.
  destruct (total h_at_user pre l) as [(u & s & r & -> & (x & G & ->) & K)|(e & c & K)].
  - rewrite K in E. inv E. exists (x ++ bs "@"), r. split; [reflexivity|]. split; [reflexivity|]. left. exists u, x, r. auto.
  - rewrite K in E. assert (n = 0) by (destruct c; cbn in E; now inv E). subst n. exists [], l. split; [reflexivity|]. split; [reflexivity|].
    right. split; [reflexivity|]. intros u x r G El. cbn [app] in El. subst l. pose proof (@a_at_user u x r G pre) as A. rewrite <- app_assoc in A. congruence.
Qed.
Lemma rd_host : reads (host std_v6_parse) (fun h s _ => g_host v6_text h s /\ plain_host h).
Proof.
  intros pre l v n E. pose proof (@rd_hoare _ _ _ _ (h_host (h_v6_text std_v6_parse std_v6_sound)) _ _ _ _ E) as (s & r & -> & L & G).
  exists s, r. split; [reflexivity|]. split; [exact L|]. split; [exact G|]. destruct v as [x|a|a]; [|exact I|exact I].
  inv G. intros (a & t & q & G4 & ->). destruct (@ipv4_reads_start ((t ++ q) ++ r)) as (a' & t' & q' & E' & _ & A).
  { exists a, t, (q ++ r). split; [exact G4|now rewrite <- app_assoc]. }
  specialize (A [] I pre). rewrite app_nil_r, <- E' in A. unfold host, p_name, p_or, p_attempt, p_map in E. rewrite A in E.
  destruct (ip_literal_p std_v6_parse (pre ++ (t ++ q) ++ r) (length pre)) as [? ?|? c| |]; cbn in E; try discriminate; destruct c; discriminate.
Qed.
Lemma rd_authority : reads (authority_p std_v6_parse) (fun a s r => plain_host (au_host a) /\ authority_first (s ++ r)).
Proof.
  unfold authority_p. fold at_user.
  eapply rd_map with (Q := fun uhp s r => plain_host (snd (fst uhp)) /\ authority_first (s ++ r)); [|intros [[u h] po] s r H; exact H].
  eapply rd_and with (P := fun uh s r => plain_host (snd uh) /\ authority_first (s ++ r)) (Q := fun _ _ _ => True).
  - eapply rd_and; [apply rd_user|apply rd_host|]. intros u h s t r HU [G Hp]. split; [exact Hp|].
    exists s, (t ++ r). rewrite <- app_assoc. split; [exact HU|]. split; [reflexivity|]. exists h, t, r. auto.
  - eapply rd_opt with (P := fun _ _ _ => True); [|auto..].
    eapply rd_weaken; [apply rd_hoare, h_right_both; [apply h_elm_ref_e|apply h_port]|auto].
  - intros uh po s t r H _. rewrite <- app_assoc. exact H.
Qed.

(** ** Reading the hierarchical part *)
Lemma abempty_total : forall pre l, exists p n, path_abempty false (pre ++ l) (length pre) = Success p n.
Proof.
  intros pre l. assert (B : bounded (to_string slash_segment)).
  { eapply rd_bounded, rd_hoare, h_to_string, h_slash. }
  pose proof (@HoconLookup.many0_no_fail _ (to_string slash_segment) (pre ++ l) (length pre) B ltac:(rewrite app_length; lia)) as F.
  destruct (total (h_abempty false) pre l) as [(v & s & r & -> & _ & E)|(e & c & E)]; [eauto|].
  exfalso. unfold path_abempty, p_name, p_map, p_repeat in E. cbn [rg_from] in E. unfold p_many0 in F.
  destruct (p_repeat_sep _ _ _ _ _) as [v n|e' c'| |]; try discriminate. eapply F. reflexivity.
Qed.
Lemma map_ok : forall A B (p : parser N A) (f : A -> B) inp off v n, p inp off = Success v n -> p_map p f inp off = Success (f v) n.
Proof. intros A B p f inp off v n E. unfold p_map. now rewrite E. Qed.
Lemma and_ok : forall A B (p : parser N A) (q : parser N B) inp off a b n m, p inp off = Success a n -> q inp (off + n) = Success b m ->
  p_and p q inp off = Success (a, b) (n + m).
Proof. intros A B p q inp off a b n m E F. unfold p_and. rewrite E, F. reflexivity. Qed.
Lemma skip_left_ok : forall A B (p : parser N A) (q : parser N B) inp off a b n m, p inp off = Success a n -> q inp (off + n) = Success b m ->
  p_skip_left p q inp off = Success b (n + m).
Proof. intros A B p q inp off a b n m E F. unfold p_skip_left. rewrite E, F. reflexivity. Qed.
Lemma opt_or_first : forall A (p q : parser N A) inp off v n, p inp off = Success v n -> p_opt (p_or (p_attempt p) q) inp off = Success (Some v) n.
Proof. intros A p q inp off v n E. unfold p_opt, p_or, p_map, p_attempt. rewrite E. reflexivity. Qed.
Definition apart_hier (o : option hier_part) (l : bytes) : Prop :=
  match o with
  | Some (mk_hier (Some a) _) => plain_host (au_host a)
  | Some (mk_hier None p) => forall t, l = bs "//" ++ t -> ~ authority_first t
  | None => True
  end.
Lemma rd_hier : reads (hier_part_p std_v6_parse) (fun o s r => g_opt (g_hier v6_text) o s /\ apart_hier o (s ++ r)).
Proof.
  intros pre l v n E. pose proof (@rd_hoare _ _ _ _ (h_hier (h_v6_text std_v6_parse std_v6_sound)) _ _ _ _ E) as (s & r & -> & L & G).
  exists s, r. split; [reflexivity|]. split; [exact L|]. split; [exact G|]. destruct v as [[[a|] p]|]; [| |exact I].
  - cbn. assert (R : reads (hier_part_p std_v6_parse) (fun o _ _ => forall a p, o = Some (mk_hier (Some a) p) -> plain_host (au_host a))).
    { unfold hier_part_p. eapply rd_opt with (P := fun h _ _ => forall a, hp_authority h = Some a -> plain_host (au_host a)).
      - apply rd_or; [apply rd_attempt|].
        + eapply rd_map.
          * eapply rd_and with (P := fun a _ _ => plain_host (au_host a)) (Q := fun _ _ _ => True) (R := fun ab _ _ => plain_host (au_host (fst ab))).
            -- eapply rd_skip_left with (P := fun _ _ _ => True); [|apply rd_authority|].
               ++ eapply rd_weaken; [apply rd_hoare, h_seqN with (R := fun _ _ => True); exact I|auto].
               ++ intros u b x t q _ [H _]. exact H.
            -- eapply rd_weaken; [apply rd_hoare, (h_abempty false)|auto].
            -- intros u b x t q H _. exact H.
          * intros [u b] x q H u' Eu. cbn in Eu. inv Eu. exact H.
        + eapply rd_map with (Q := fun _ _ _ => True).
          * eapply rd_or; [apply rd_attempt|]; (eapply rd_weaken; [apply rd_hoare; first [apply h_abempty|apply h_rootless]|auto]).
          * intros u x q _ u' Eu. discriminate.
      - intros h x q H u b Eu. inv Eu. now apply H.
      - discriminate. }
    destruct (R _ _ _ _ E) as (x & q & _ & _ & K). eapply K. reflexivity.
  - intros t Et Ha. cbn in Et. rewrite Et in E. destruct (@authority_reads t Ha (pre ++ bs "//")) as (a & m & Ea).
    rewrite <- app_assoc in Ea. pose proof (@a_seqN (bs "//") t pre) as Es. destruct (abempty_total (firstn (length pre + 2 + m) (pre ++ bs "//" ++ t)) (skipn (length pre + 2 + m) (pre ++ bs "//" ++ t))) as (b & k & Eb).
    rewrite firstn_skipn in Eb.
    assert (Lm : m <= length t).
    { destruct (rd_authority (pre ++ bs "//") t) with (v := a) (n := m) as (x & q & -> & <- & _); [now rewrite <- app_assoc|rewrite app_length; lia]. }
    rewrite firstn_length_le in Eb by (rewrite !app_length; cbn; lia).
    assert (E1 : p_map (p_and (p_skip_left (p_seqN (bs "//")) (authority_p std_v6_parse)) (path_abempty false))
      (fun ab => mk_hier (Some (fst ab)) (snd ab)) (pre ++ bs "//" ++ t) (length pre) = Success (mk_hier (Some a) b) (2 + m + k)).
    { rewrite app_length in Ea. change (length (bs "//")) with 2 in *. apply map_ok with (v := (a, b)), and_ok.
      - eapply skip_left_ok; [exact Es|exact Ea].
      - now rewrite Nat.add_assoc. }
    unfold hier_part_p in E. erewrite opt_or_first in E by exact E1. discriminate.
Qed.

(** ** Nothing of an authority is beyond the path *)
Definition inside (x : N) : Prop := x <> chr "?" /\ x <> chr "#".
Lemma reg_inside : forall x, c_reg x -> inside x.
Proof. intros x H. split; intros ->; revert H; lit_class. Qed.
Lemma hex_inside : forall x, hexdig x -> inside x.
Proof. intros x H. split; intros ->; apply hexdig_iff in H; discriminate H. Qed.
Lemma enc_inside : forall s, enc c_reg s -> Forall inside s.
Proof.
  intros s H. induction H as [|x s Hx _ IH|a b s Ha Hb _ IH]; [constructor|constructor; [now apply reg_inside|exact IH]|].
  constructor; [split; discriminate|]. constructor; [now apply hex_inside|]. constructor; [now apply hex_inside|exact IH].
Qed.
Lemma user_inside : forall u s, g_user u s -> Forall inside (s ++ bs "@").
Proof.
  intros u s H. apply Forall_app. split; [|repeat constructor; discriminate].
  destruct H as [n Hn|n p Hn Hp _]; [now apply enc_inside|]. apply Forall_app. split; [now apply enc_inside|]. constructor; [split; discriminate|now apply enc_inside].
Qed.
Lemma host_inside : forall h s, g_host v6_text h s -> Forall inside s.
Proof.
  intros h s H. destruct H as [s H _|a s H|a s [H _]|hh s H1 H2 H3 H4].
  - now apply enc_inside.
  - eapply enc_inside, ipv4_enc, H.
  - assert (G : g_host ipv6_text (IpLiteral (Ipv6Address a)) (bs "[" ++ s ++ bs "]")) by now constructor.
    apply Forall_forall. intros x Hx. split; intros ->; revert Hx; (eapply free_host; [exact G|lit_class|lit_notin]).
  - repeat (apply Forall_app; split); try (repeat constructor; discriminate).
    + eapply Forall_impl; [|exact H1]. apply hex_inside.
    + eapply Forall_impl; [|exact H3]. intros x [K| ->]; [now apply reg_inside|split; discriminate].
Qed.
Lemma outside : forall rest, starts (bs "?#") rest -> match rest with [] => True | x :: _ => ~ inside x end.
Proof. intros [|x r] H; [exact I|]. intros [H1 H2]. cbn in H. destruct H as [H|[H|[]]]; [apply H1|apply H2]; now rewrite <- H. Qed.
Lemma authority_shrinks : forall t rest, starts (bs "?#") rest -> authority_first (t ++ rest) -> authority_first t.
Proof.
  intros t rest Hr (w & r & U & E & h & x & q & G & ->). apply outside in Hr.
  assert (H : exists r', t = w ++ r' /\ user_first w t).
  { destruct U as [(u & y & r' & Gu & Ew & _)|[-> H]].
    - subst w. destruct (@prefix_of inside t (y ++ bs "@") _ rest (user_inside Gu) Hr E) as [r2 E2]. exists r2. split; [exact E2|].
      left. exists u, y, r2. auto.
    - exists t. split; [reflexivity|]. right. split; [reflexivity|]. intros u y r2 Gu Et. eapply (H u y (r2 ++ rest) Gu). now rewrite Et, <- !app_assoc. }
  destruct H as (r' & Et & U'). exists w, r'. split; [exact U'|]. split; [exact Et|]. subst t. rewrite <- app_assoc in E. apply app_inv_head in E.
  destruct (@prefix_of inside r' x q rest (host_inside G) Hr E) as [r2 E2]. exists h, x, r2. auto.
Qed.
Lemma authority_grows : forall t rest, starts (bs "?#") rest -> authority_first t -> authority_first (t ++ rest).
Proof.
  intros t rest Hr (w & r & U & E & h & x & q & G & ->). apply outside in Hr. exists w, ((x ++ q) ++ rest).
  split; [|split; [now rewrite E, <- app_assoc|exists h, x, (q ++ rest); now rewrite <- app_assoc]].
  destruct U as [(u & y & r' & Gu & Ew & E2)|[-> H]].
  - left. exists u, y, (r' ++ rest). split; [exact Gu|]. split; [exact Ew|]. now rewrite E2, <- app_assoc.
  - right. split; [reflexivity|]. intros u y r2 Gu K. rewrite app_assoc in K.
    destruct (@prefix_of inside t (y ++ bs "@") r2 rest (user_inside Gu) Hr K) as [r3 E3]. eapply (H u y r3 Gu). now rewrite E3, <- app_assoc.
Qed.
Lemma a_hier_apart : forall h s rest, g_opt (g_hier v6_text) h s -> apart_hier h s -> starts (bs "?#") rest -> acc (hier_part_p std_v6_parse) s rest h.
Proof.
  intros h s rest H Hp Hr. pose proof (a_hier (a_v6_bracket std_v6_parse std_v6_complete)) as A. destruct h as [[[a|] p]|]; [now apply A| |now apply A].
  inversion H as [|h' s' G]; subst. inversion G as [|p' s' Gp Hne]; subst. cbn in Hp.
  destruct s as [|x [|y t]]; [congruence|apply A; auto; cbn; rewrite (g_path_show Gp); now intros [t K]|].
  destruct (N.eq_dec x (chr "/")) as [->|Nx]; [destruct (N.eq_dec y (chr "/")) as [->|Ny]|].
  2,3: apply A; auto; unfold plain_hier; rewrite (g_path_show Gp); intros [r K]; change (bs "//" ++ r) with (chr "/" :: chr "/" :: r) in K; congruence.
  specialize (Hp t eq_refl). unfold hier_part_p. apply a_opt, a_or2.
  - apply r_attempt_any. intros pre. unfold p_map, p_and, p_skip_left.
    pose proof (@a_seqN (bs "//") (t ++ rest) pre) as Es. change ((chr "/" :: chr "/" :: t) ++ rest) with (bs "//" ++ t ++ rest). rewrite Es.
    destruct (total (h_authority (h_v6_text std_v6_parse std_v6_sound)) (pre ++ bs "//") (t ++ rest)) as [(v & s & r & E & _ & K)|(e & c & K)].
    + exfalso. apply Hp. eapply authority_shrinks; [exact Hr|]. destruct (rd_authority _ _ K) as (s2 & r2 & -> & _ & _ & F). exact F.
    + rewrite app_length, <- app_assoc in K. rewrite K. cbn. eauto.
  - eapply a_map_eq; [|reflexivity]. inversion Gp as [l Hl|s l Hs Hs' Hl]; subst.
    + match goal with Q : List.concat l = _ |- _ => change (List.concat l = chr "/" :: chr "/" :: t) in Q; rewrite <- Q end.
      apply a_or1, a_attempt, a_abempty; [exact Hl| |exact Hr]. intros _ ->. discriminate.
    + exfalso. destruct Hs as [|z u' Hz _|]; [congruence| |discriminate].
      match goal with Q : (z :: u') ++ _ = _ |- _ => cbn in Q; injection Q as -> _ end. revert Hz. lit_class.
Qed.
Lemma a_uri_apart : forall u s, g_uri v6_text u s -> apart u -> acc (uri_p std_v6_parse) s [] u.
Proof.
  intros u s H Hp. destruct H as [c sc h sh q sq f sf Hc Hh Hq Hf]. unfold apart in Hp. cbn [u_hier] in Hp. unfold uri_p.
  eapply a_map_eq with (v := (((c, h), q), f)); [|reflexivity].
  replace (sc ++ bs ":" ++ sh ++ sq ++ sf) with ((((sc ++ bs ":") ++ sh) ++ sq) ++ sf) by now rewrite <- !app_assoc.
  assert (Sf : starts (bs "#") (sf ++ [])) by (destruct Hf as [|f s (t & Ht & ->)]; [exact I|left; reflexivity]).
  assert (Sq : starts (bs "?#") (sq ++ sf ++ [])).
  { destruct Hq as [|q s (t & Ht & ->)]; [|left; reflexivity]. eapply starts_more; [|exact Sf]. intros x K. now right. }
  eapply a_and; [eapply a_and; [eapply a_and; [eapply a_skip_right; [|apply a_elm]|]|]|].
  - destruct Hc as [|c s [-> Hs]]; [eapply a_opt_none, r_scheme; reflexivity|]. apply a_opt, a_scheme; [now split|reflexivity].
  - apply a_hier_apart; [exact Hh| |exact Sq]. destruct Hh as [|h sh Hh]; [exact I|]. destruct Hh as [a s l Ha Hl|p s Hg Hne]; [exact Hp|].
    cbn. intros t ->. apply Hp. now apply g_path_show.
  - destruct Hq as [|q s (t & Ht & ->)]; [eapply a_opt_none, r_skip_left1, r_elm; eapply starts_not; [exact Sf|lit_notin]|].
    apply a_opt. eapply a_skip_left; [apply a_elm|]. now apply a_query.
  - destruct Hf as [|f s (t & [-> Ht] & ->)]; [eapply a_opt_none, r_skip_left1, r_elm; exact I|].
    apply a_opt. eapply a_skip_left; [apply a_elm|]. now apply a_fragment.
Qed.
(** What is left of a URI after its scheme. *)
Lemma rd_uri : reads (uri_p std_v6_parse) (fun u s r => exists sc x, g_opt g_scheme (u_scheme u) sc /\ s = sc ++ bs ":" ++ x /\ apart_hier (u_hier u) (x ++ r)).
Proof.
  unfold uri_p.
  eapply rd_map with (Q := fun shqf s r => exists sc x, g_opt g_scheme (fst (fst (fst shqf))) sc /\ s = sc ++ bs ":" ++ x /\ apart_hier (snd (fst (fst shqf))) (x ++ r));
    [|intros [[[c h] q] f] s r H; exact H].
  eapply rd_and with (Q := fun _ _ _ => True)
    (P := fun shq s r => exists sc x, g_opt g_scheme (fst (fst shq)) sc /\ s = sc ++ bs ":" ++ x /\ apart_hier (snd (fst shq)) (x ++ r)).
  - eapply rd_and with (Q := fun _ _ _ => True) (P := fun sh s r => exists sc x, g_opt g_scheme (fst sh) sc /\ s = sc ++ bs ":" ++ x /\ apart_hier (snd sh) (x ++ r)).
    + eapply rd_and with (P := fun c s _ => exists sc, g_opt g_scheme c sc /\ s = sc ++ bs ":"); [|apply rd_hier|].
      * eapply rd_weaken; [apply rd_hoare, h_left_both; [apply h_opt_g, h_scheme|apply h_elm_e]|]. intros c s r H. parts. eauto.
      * intros c h s t r (sc & Hc & ->) [_ K]. exists sc, t. split; [exact Hc|]. split; [now rewrite <- app_assoc|exact K].
    + eapply rd_weaken; [apply rd_hoare, h_opt_g, h_right_both; [apply h_elm_e|apply h_query]|auto].
    + intros [c h] q s t r (sc & x & Hc & -> & K) _. cbn [fst snd] in *. exists sc, (x ++ t). split; [exact Hc|]. split; [now rewrite <- !app_assoc|]. now rewrite <- app_assoc.
  - eapply rd_weaken; [apply rd_hoare, h_opt_g, h_right_both; [apply h_elm_e|apply h_fragment]|auto].
  - intros [[c h] q] f s t r (sc & x & Hc & -> & K) _. cbn [fst snd] in *. exists sc, (x ++ t). split; [exact Hc|]. split; [now rewrite <- !app_assoc|]. now rewrite <- app_assoc.
Qed.

(** ** The language of the parser *)
Theorem C118_language : forall u text, uri_parse std_v6_parse text = Success u (length text) <-> g_uri v6_text u text /\ apart u.
Proof.
  intros u text. split.
  - intros E. destruct (C103_consumed_is_uri _ E) as [_ G]. rewrite firstn_all in G. split; [exact G|].
    destruct (rd_uri [] text E) as (s & r & Et & L & sc & x & Hc & Es & K).
    assert (r = []) by (apply length_zero_iff_nil; rewrite Et, app_length in L; lia). subst r. rewrite app_nil_r in *. subst s text.
    destruct u as [c h q f]. unfold apart. cbn [u_scheme u_hier] in *. inversion G as [c' sc' h' sh q' sq f' sf Hc' Hh Hq Hf E1 E2]; subst.
    assert (sc' = sc) by (destruct Hc as [|c s [-> _]]; inv Hc'; [reflexivity|match goal with Q : g_scheme _ _ |- _ => now destruct Q as [-> _] end]). subst sc'.
    apply app_inv_head in E2. injection E2 as E2. subst x.
    destruct h as [[[a|] p]|]; [exact K| |exact I]. cbn in K. inversion Hh as [|h' sh' Gh]; subst. inversion Gh as [|p' sh' Gp Hne]; subst.
    rewrite (g_path_show Gp). intros t -> A. eapply (K (t ++ sq ++ sf)); [reflexivity|]. apply authority_grows; [|exact A].
    destruct Hq as [|q s (y & Hy & ->)]; [|left; reflexivity]. destruct Hf as [|f s (y & Hy & ->)]; [exact I|right; left; reflexivity].
  - intros [G A]. apply PropsAD.acc_parse. now apply a_uri_apart.
Qed.
Print Assumptions C118_language.

(** ** URIs assembled from their parts *)
(** The values of the Rust types: u8 octets, u16 segments and ports. *)
Definition typed_host (h : host_name) : Prop :=
  match h with
  | Ipv4Address (a, b, c, d) => (a <= 255 /\ b <= 255 /\ c <= 255 /\ d <= 255)%N
  | IpLiteral (Ipv6Address a) => length a = 8 /\ Forall (fun x => x < 65536)%N a
  | _ => True
  end.
Definition typed (u : uri) : Prop :=
  match uri_authority u with
  | Some a => typed_host (au_host a) /\ match au_port a with Some n => (n <= 65535)%N | None => True end
  | None => True
  end.
(** The parts are texts of RFC 3986, and the path is one that can follow. *)
Definition good_scheme (s : bytes) : Prop :=
  match s with [] => False | x :: t => alpha x /\ Forall (fun c => alpha c \/ digit c \/ among (bs "+-.") c) t end.
Definition good_user (u : user_info) : Prop :=
  enc c_reg (ui_name u) /\ match ui_password u with Some p => enc c_reg p /\ p <> [] | None => True end.
Definition good_host (h : host_name) : Prop :=
  match h with
  | RegName s => enc c_reg s /\ s <> []
  | Ipv4Address _ | IpLiteral (Ipv6Address _) => True
  | IpLiteral (IpvFuture s) => future_text s
  end.
Definition good_authority (a : authority) : Prop :=
  good_host (au_host a) /\ match au_user a with Some u => good_user u | None => True end.
Definition good_hier (h : hier_part) : Prop :=
  match h with
  | mk_hier (Some a) (AbemptyPath l) => good_authority a /\ Forall g_seg l
  | mk_hier None (AbemptyPath l) => l <> [] /\ Forall g_seg l
  | mk_hier None (RootlessPath (s :: l)) => enc c_pchar s /\ s <> [] /\ Forall g_seg l
  | _ => False
  end.
Definition good_param (kv : bytes * option bytes) : Prop :=
  enc c_query (fst kv) /\ match snd kv with Some v => enc c_query v | None => True end.
Definition good (u : uri) : Prop :=
  match u_scheme u with Some s => good_scheme s | None => True end /\
  match u_hier u with Some h => good_hier h | None => True end /\
  match u_query u with Some q => q <> [] /\ Forall good_param q | None => True end /\
  match u_fragment u with Some f => enc c_fragment f | None => True end.

Lemma octet_text : forall v, (v <= 255)%N -> octet v (show_dec v).
Proof. intros v H. split; [apply show_dec_canonical|]. split; [apply show_dec_value|exact H]. Qed.
Lemma host_of_good : forall h, typed_host h -> good_host h -> g_host v6_text h (show_host std_v6_show h).
Proof.
  intros [s|[[[a b] c] d]|[a|s]] T G; cbn in T, G; cbn [show_host show_ip_literal].
  - now constructor.
  - constructor. destruct T as (Ta & Tb & Tc & Td). unfold show_ipv4. constructor; now apply octet_text.
  - constructor. destruct T as [L F]. now apply std_show_text.
  - destruct G as (h & x & -> & H1 & H2 & H3 & H4). now constructor.
Qed.
Lemma good_of_host : forall h s, g_host v6_text h s -> good_host h.
Proof. intros h s H. destruct H as [s H Hne|a s H|a s H|hh s H1 H2 H3 H4]; cbn; auto. exists hh, s. auto. Qed.
Lemma params_of_good : forall q, q <> [] -> Forall good_param q -> g_params q (show_query q).
Proof.
  intros q Hne F. induction F as [|kv q Hk F IH]; [congruence|].
  assert (G : g_param kv (show_param kv)) by (destruct kv as [k [v|]]; destruct Hk as [H1 H2]; cbn in *; constructor; assumption).
  destruct q as [|kv2 q]; [now constructor|]. unfold show_query. cbn [map join]. constructor; [exact G|]. apply IH. discriminate.
Qed.
Lemma good_of_params : forall q s, g_params q s -> q <> [] /\ Forall good_param q.
Proof.
  intros q s H. split; [destruct H; discriminate|]. induction H as [kv s H|kv s q t H _ IH]; (constructor; [destruct H; now split|auto]).
Qed.
Lemma uri_of_good : forall u, typed u -> good u -> g_uri v6_text u (show_uri std_v6_show u).
Proof.
  intros [c h q f] T (Hc & Hh & Hq & Hf). unfold typed, uri_authority in T. cbn [u_scheme u_hier u_query u_fragment] in *. unfold show_uri. cbn [u_scheme u_hier u_query u_fragment].
  rewrite (app_assoc (show_opt _ h) (show_opt _ h)). constructor.
  - destruct c as [s|]; [|constructor]. constructor. split; [reflexivity|]. destruct s as [|x t]; [contradiction|]. exists x, t. destruct Hc. auto.
  - destruct h as [h|]; [|constructor]. constructor. cbn [show_opt]. destruct h as [[a|] p]; cbn [hp_authority hp_path show_opt] in *.
    + destruct p as [l|l|l|l|]; cbn in Hh; try contradiction. destruct Hh as [[Gh Gu] F]. destruct T as [Th Tp]. unfold show_path. cbn [path_parts]. rewrite <- app_assoc.
      constructor; [|exact F]. destruct a as [hn po us]. cbn [au_host au_port au_user] in *. unfold show_authority. cbn [au_host au_port au_user]. constructor.
      * destruct us as [us|]; [|constructor]. constructor. exists (show_user us). split; [|reflexivity]. destruct us as [n [p|]]; destruct Gu as [G1 G2]; cbn in G1, G2.
        -- destruct G2. now constructor.
        -- unfold show_user. cbn. rewrite ?app_nil_r. now constructor.
      * now apply host_of_good.
      * destruct po as [n|]; [|constructor]. constructor. exists (show_dec n). split; [|reflexivity].
        destruct (show_dec_canonical n) as (K1 & K2 & _). split; [exact K1|]. split; [exact K2|]. split; [apply show_dec_value|exact Tp].
    + cbn [app]. destruct p as [l|l|l|l|]; cbn in Hh; try contradiction.
      * destruct l as [|s l]; [contradiction|]. destruct Hh as (H1 & H2 & H3). constructor; [unfold show_path; cbn; now constructor|].
        unfold show_path. cbn. destruct s; [congruence|discriminate].
      * destruct Hh as [Hne F]. constructor; [unfold show_path; cbn; now constructor|]. unfold show_path. cbn [path_parts].
        destruct F as [|s l (t & -> & _) _]; [congruence|]. discriminate.
  - destruct q as [q|]; [|constructor]. constructor. destruct Hq. exists (show_query q). split; [now apply params_of_good|reflexivity].
  - destruct f as [f|]; [|constructor]. constructor. exists f. now split.
Qed.
Lemma good_of_uri : forall u s, g_uri v6_text u s -> good u.
Proof.
  intros u s H. destruct H as [c sc h sh q sq f sf Hc Hh Hq Hf]. unfold good. cbn [u_scheme u_hier u_query u_fragment]. split; [|split; [|split]].
  - destruct Hc as [|c s [-> (x & t & -> & K)]]; [exact I|exact K].
  - destruct Hh as [|h s Hh]; [exact I|]. destruct Hh as [a s l Ha Hl|p s Hp Hne].
    + cbn. split; [|exact Hl]. destruct Ha as [us su hn shn po sp Hu Hhn _]. split; [eapply good_of_host, Hhn|].
      cbn [au_user]. destruct Hu as [|u s (t & Hu & _)]; [exact I|]. destruct Hu; split; cbn; auto.
    + destruct Hp as [l Hl|s l H1 H2 H3]; cbn; [|auto]. split; [|exact Hl]. intros ->. now apply Hne.
  - destruct Hq as [|q s (t & Ht & _)]; [exact I|]. eapply good_of_params, Ht.
  - destruct Hf as [|f s (t & [-> Ht] & _)]; [exact I|exact Ht].
Qed.
(** A URI assembled from its parts, printed and read again, gives the same URI exactly when its parts are well-formed and
    keep apart; its text is then read to the end. *)
Theorem C119_assembled : forall u, typed u ->
  (exists n, uri_parse std_v6_parse (show_uri std_v6_show u) = Success u n) <-> good u /\ apart u.
Proof.
  intros u T. split.
  - intros [n E]. destruct (C103_consumed_is_uri _ E) as [_ G]. pose proof (good_of_uri G) as Gu. split; [exact Gu|].
    pose proof (uri_of_good T Gu) as G2. destruct (rd_uri [] _ E) as (s & r & Et & L & sc & x & Hc & Es & K). clear G.
    remember (show_uri std_v6_show u) as text eqn:Etext. clear Etext. subst s. destruct G2 as [c sc' h sh q sq f sf Hc' Hh Hq Hf].
    unfold apart. cbn [u_scheme u_hier] in *.
    assert (sc' = sc) by (destruct Hc as [|c s [-> _]]; inv Hc'; [reflexivity|match goal with Q : g_scheme _ _ |- _ => now destruct Q as [-> _] end]). subst sc'.
    rewrite <- !app_assoc in Et. apply app_inv_head in Et. injection Et as Et. rewrite <- Et in K.
    destruct h as [[[a|] p]|]; [exact K| |exact I]. cbn in K. inversion Hh as [|h' sh' Gh]; subst. inversion Gh as [|p' sh' Gp Hne]; subst.
    rewrite (g_path_show Gp). intros t -> A. eapply (K (t ++ sq ++ sf)); [reflexivity|]. apply authority_grows; [|exact A].
    destruct Hq as [|q s (y & Hy & ->)]; [|left; reflexivity]. destruct Hf as [|f s (y & Hy & ->)]; [exact I|right; left; reflexivity].
  - intros [G A]. eexists. apply C118_language. split; [now apply uri_of_good|exact A].
Qed.
Theorem C119_read_to_the_end : forall u n, typed u -> uri_parse std_v6_parse (show_uri std_v6_show u) = Success u n ->
  n = length (show_uri std_v6_show u).
Proof.
  intros u n T E. destruct (proj1 (C119_assembled u T)) as [G A]; [eauto|].
  assert (E2 : uri_parse std_v6_parse (show_uri std_v6_show u) = Success u (length (show_uri std_v6_show u))).
  { apply C118_language. split; [now apply uri_of_good|exact A]. }
  congruence.
Qed.
Print Assumptions C119_assembled.
Print Assumptions C119_read_to_the_end.
(** The bare claim, that every URI the constructors give is read back, is false: a path made by [Path::of_absolute], an empty
    query, a host with an address before it, and a path whose first segment is empty. *)
Definition some_uri (h : hier_part) (q : option query) : uri := mk_uri (Some (bs "a")) (Some h) q None.
Definition named (s : bytes) : authority := mk_authority (RegName s) None None.
Theorem C119_every_uri_refuted : exists us, length us = 5 /\ Forall typed us /\
  Forall (fun u => ~ exists n, uri_parse std_v6_parse (show_uri std_v6_show u) = Success u n) us.
Proof.
  exists [some_uri (mk_hier None (AbsolutePath [bs "/b"])) None;
          some_uri (mk_hier (Some (named (bs "h"))) (RootlessPath [bs "/b"])) None;
          some_uri (mk_hier None (RootlessPath [bs "b"])) (Some []);
          some_uri (mk_hier (Some (named (bs "1.2.3.4x"))) (AbemptyPath [])) None;
          some_uri (mk_hier None (AbemptyPath [bs "/"; bs "/b"])) None].
  split; [reflexivity|]. split; [repeat apply Forall_cons; [..|apply Forall_nil]; cbn; auto|].
  repeat apply Forall_cons; [..|apply Forall_nil]; intros [n E]; vm_compute in E; discriminate E.
Qed.
Print Assumptions C119_every_uri_refuted.
(** Two slashes may start a path without authority, when no host can follow. *)
Example C118_case_slashes :
  let u := some_uri (mk_hier None (AbemptyPath [bs "/"; bs "/:b"])) None in
  typed u /\ good u /\ apart u /\ show_uri std_v6_show u = bs "a://:b" /\ uri_parse std_v6_parse (bs "a://:b") = Success u 6.
Proof.
  assert (E : uri_parse std_v6_parse (bs "a://:b") = Success (some_uri (mk_hier None (AbemptyPath [bs "/"; bs "/:b"])) None) (length (bs "a://:b"))) by (vm_compute; reflexivity).
  cbv zeta. split; [exact I|]. pose proof (proj1 (C118_language _ _) E) as [G A]. split; [eapply good_of_uri, G|]. split; [exact A|]. split; [reflexivity|exact E].
Qed.
(** A URI with every part. *)
Example C119_case_full :
  let u := mk_uri (Some (bs "http")) (Some (mk_hier (Some (mk_authority (IpLiteral (Ipv6Address [0; 0; 0; 0; 0; 0; 0; 1])) (Some 8080)
    (Some (mk_user (bs "me") (Some (bs "pw")))))) (AbemptyPath [bs "/a"; bs "/"; bs "/b%20"])))%N (Some [(bs "k", Some (bs "v")); (bs "x", None)]) (Some (bs "f")) in
  typed u /\ good u /\ apart u /\ show_uri std_v6_show u = bs "http://me:pw@[::1]:8080/a//b%20?k=v&x#f".
Proof.
  cbv zeta. assert (T : show_uri std_v6_show (mk_uri (Some (bs "http")) (Some (mk_hier (Some (mk_authority (IpLiteral (Ipv6Address [0; 0; 0; 0; 0; 0; 0; 1])) (Some 8080)
    (Some (mk_user (bs "me") (Some (bs "pw")))))) (AbemptyPath [bs "/a"; bs "/"; bs "/b%20"])))%N (Some [(bs "k", Some (bs "v")); (bs "x", None)]) (Some (bs "f"))) =
    bs "http://me:pw@[::1]:8080/a//b%20?k=v&x#f") by (vm_compute; reflexivity).
  match type of T with show_uri _ ?u = ?t => assert (E : uri_parse std_v6_parse t = Success u (length t)) by (vm_compute; reflexivity) end.
  pose proof (proj1 (C118_language _ _) E) as [G A]. split; [|split; [eapply good_of_uri, G|split; [exact A|exact T]]].
  cbn. repeat split; try lia. repeat apply Forall_cons; [..|apply Forall_nil]; lia.
Qed.
