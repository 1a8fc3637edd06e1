(** The randomised tests of uri/src, for every text that their generators can produce: C117.
    (The tests run each of them on some hundred texts.)  The generators are the sets of UriGens.v; the standard library's
    reader and printer of IPv6 addresses are those of UriStd.v. *)
From Verif Require Import Base Core Comb Closure RepFacts LitFacts Hoare Runs Text Uri UriSpec UriFacts UriComplete UriV6 UriStd UriGens.
From Verif Require Import PropsE PropsN PropsP PropsR.
Set Implicit Arguments.
Local Open Scope string_scope.
Local Open Scope nat_scope.
Local Open Scope list_scope.

(** What the tests check: (p - end()).parse(s).to_result().unwrap().to_string() == s. *)
Definition passes {A} (p : parser N A) (show : A -> bytes) (s : bytes) : Prop :=
  exists v, parse (p_skip_right p (@p_end N)) s = Success v (length s) /\ show v = s.
(** The tests of basic_parsers.rs and fragment_parsers.rs: (p - end()).collect().map(to_vec).map_res(String::from_utf8). *)
Definition collects {A} (p : parser N A) (s : bytes) : Prop :=
  parse (to_string (p_collect (p_skip_right p (@p_end N)))) s = Success s (length s).

Lemma whole_acc : forall A (p : parser N A) s v, acc p s [] v -> acc (p_skip_right p (@p_end N)) s [] v.
Proof. intros A p s v H. rewrite <- (app_nil_r s). eapply a_skip_right; [exact H|apply a_end]. Qed.
Lemma acc_parse : forall A (p : parser N A) s v, acc p s [] v -> parse p s = Success v (length s).
Proof. intros A p s v H. specialize (H []). cbn [app] in H. rewrite app_nil_r in H. exact H. Qed.
Lemma passes_acc : forall A (p : parser N A) show s v, acc p s [] v -> show v = s -> passes p show s.
Proof. intros A p show s v H E. exists v. split; [|exact E]. apply acc_parse. now apply whole_acc. Qed.
Lemma collects_acc : forall A (p : parser N A) s v, acc p s [] v -> ascii s -> collects p s.
Proof. intros A p s v H L. apply acc_parse. apply a_to_string; [|exact L]. eapply a_collect. apply whole_acc, H. Qed.

(** ** What the generators produce *)
Lemma g_alpha : forall x, alpha_char_gen x -> alpha x.
Proof. intros x ([|] & _ & H); unfold low_alpha_gen, high_alpha_gen, choose, alpha in *; cbn in H; lia. Qed.
Lemma g_digit : forall x, digit_gen (chr "0") (chr "9") x -> digit x.
Proof. intros x H. unfold digit_gen, choose, digit in *. cbn in H. lia. Qed.
Lemma g_hex : forall x, hex_digit_gen_lower x -> hexdig x.
Proof.
  intros x H. unfold hex_digit_gen_lower, frequency in H. rewrite Exists_exists in H. destruct H as (g & Hg & H).
  repeat destruct Hg as [<-|Hg]; try contradiction; unfold digit_gen, choose, hexdig in *; cbn in H; lia.
Qed.
Lemma g_unreserved : forall x, unreserved_gen_of_char x -> c_unreserved x.
Proof.
  intros x H. unfold unreserved_gen_of_char, frequency in H. rewrite Exists_exists in H. destruct H as (g & Hg & H).
  unfold c_unreserved. repeat destruct Hg as [<-|Hg]; [left; now apply g_alpha|right; left; now apply g_digit|right; right; exact H|contradiction].
Qed.
Lemma g_list : forall A (g : gen A) (P : A -> Prop) n l, (forall x, g x -> P x) -> list_of_n n g l -> Forall P l /\ length l = N.to_nat n.
Proof. intros A g P n l H [L K]. split; [eapply Forall_impl; [|exact K]; exact H|lia]. Qed.
Lemma g_chars : forall (g : gen N) (P : N -> Prop) n s, (forall x, g x -> P x) -> repeat_gen_of_char n g s ->
  Forall P s /\ s <> [] /\ length s <= N.to_nat n.
Proof.
  intros g P n s H (k & Hk & K). destruct (@g_list N g P k s H K) as [F L]. unfold choose in Hk. split; [exact F|]. split; [|lia].
  destruct s; [cbn in L; lia|discriminate].
Qed.
Lemma g_pct : forall s, pct_encoded_gen s -> exists a b, hexdig a /\ hexdig b /\ s = [chr "%"; a; b].
Proof.
  intros s (l & K & ->). destruct (g_list hexdig g_hex K) as [F L]. destruct l as [|a [|b [|c l]]]; try discriminate. inv F. inv H2. exists a, b. auto.
Qed.
(** A nonempty text of the class. *)
Definition part (C : N -> Prop) (s : bytes) : Prop := enc C s /\ s <> [].
Lemma g_pct_part : forall C s, pct_encoded_gen s -> part C s.
Proof. intros C s H. destruct (g_pct H) as (a & b & Ha & Hb & ->). split; [apply enc_pct; auto; constructor|discriminate]. Qed.
Lemma chars_enc : forall (C : N -> Prop) s, Forall C s -> enc C s.
Proof. intros C s H. induction H; [apply enc_nil|now apply enc_chr]. Qed.
Lemma g_into_part : forall (g : gen N) (C : N -> Prop) s, (forall x, g x -> C x) -> g_map g into s -> part C s.
Proof. intros g C s H (x & K & ->). split; [apply enc_chr; [now apply H|constructor]|discriminate]. Qed.
Lemma g_frequency : forall A (l : list (gen A)) (P : A -> Prop), Forall (fun g : gen A => forall x, g x -> P x) l -> forall x, frequency l x -> P x.
Proof. intros A l P H x K. unfold frequency in K. rewrite Exists_exists in K. destruct K as (g & Hg & K). rewrite Forall_forall in H. now apply (H g). Qed.
Lemma g_repeat : forall (g : gen bytes) C min max s, (forall x, g x -> part C x) -> repeat_gen_of_string min max g s ->
  enc C s /\ ((1 <= min)%N -> s <> []).
Proof.
  intros g C min max s H (n & Hn & l & K & ->). destruct (g_list (part C) H K) as [F L]. split.
  - clear L K. induction F as [|x l [Hx _] _ IH]; [constructor|]. cbn. now apply enc_app.
  - intros Hm. unfold choose in Hn. destruct F as [|x l [_ Hx] _]; [cbn in L; lia|]. cbn. destruct x; [congruence|discriminate].
Qed.
Lemma g_repeat1 : forall (g : gen bytes) C max s, repeat_gen_of_string 1 max g s -> (forall x, g x -> part C x) -> part C s.
Proof. intros g C max s H K. destruct (g_repeat K H) as [E Hne]. split; [exact E|apply Hne; lia]. Qed.
Lemma part_w : forall (C D : N -> Prop) s, (forall x, C x -> D x) -> part C s -> part D s.
Proof. intros C D s H [E K]. split; [now apply enc_w with C|exact K]. Qed.
Ltac alts := apply g_frequency; repeat apply Forall_cons; [..|apply Forall_nil].
Lemma g_reg_piece : forall x, frequency [g_map unreserved_gen_of_char into; g_map sub_delims_gen_of_char into; pct_encoded_gen] x -> part c_reg x.
Proof.
  alts; intros x H; [eapply g_into_part; [|exact H]; intros y Hy; left; now apply g_unreserved|eapply g_into_part; [|exact H]; intros y Hy; now right|
    now apply g_pct_part].
Qed.
Lemma g_pchar : forall min max s, pchar_gen min max s -> enc c_pchar s /\ ((1 <= min)%N -> s <> []).
Proof.
  intros min max s H. eapply g_repeat; [|exact H]. alts; intros x K.
  - eapply g_into_part; [|exact K]. intros y Hy. left. left. now apply g_unreserved.
  - now apply g_pct_part.
  - eapply g_into_part; [|exact K]. intros y Hy. left. now right.
  - eapply g_into_part; [|exact K]. intros y Hy. now right.
Qed.
Lemma enc_plain : forall (C : N -> Prop) s, enc C s -> (forall x, C x -> x < 128)%N -> ascii s.
Proof. intros C s H K. eapply enc_ascii; eassumption. Qed.

(** ** basic_parsers.rs 197-308 *)
(** of_many1 of a parser of one character. *)
Lemma single_many : forall p C s, single p C -> Forall C s -> s <> [] -> (forall x, C x -> x < 128)%N -> exists v, acc (p_many1 p) s [] v.
Proof.
  intros p C s [P1 P2] H Hne _. assert (K : exists vs, chain p s [] vs /\ (s <> [] -> vs <> [])).
  { clear Hne. induction H as [|x s Hx H [vs [IH _]]]; [exists []; split; [constructor|congruence]|]. exists ([x] :: vs). split; [|discriminate].
    change (x :: s) with ([x] ++ s). constructor; [now apply P1|discriminate|exact IH]. }
  destruct K as (vs & K & L). exists vs. eapply a_many1; [exact K|now apply P2|auto].
Qed.
Lemma s_gen : single gen_delims (among (bs ":/?#[]@")).
Proof. eapply cls_single; [apply cls_name, cls_ref_of|apply among_iff]. Qed.
Lemma s_reserved : single reserved (fun x => among (bs ":/?#[]@") x \/ c_sub_delims x).
Proof.
  unfold reserved. apply single_name. destruct s_gen as [G1 G2], s_sub as [S1 S2]. split.
  - intros x rest H. destruct (in_dec_N (bs ":/?#[]@") x) as [K|K]; [now apply a_or1, G1|]. destruct H as [H|H]; [contradiction|].
    apply a_or2; [now apply G2|now apply S1].
  - intros l H. apply r_or; [apply G2|apply S2]; destruct l; try exact I; tauto.
Qed.
Lemma chars_ascii : forall (C : N -> Prop) s, (forall x, C x -> x < 128)%N -> Forall C s -> ascii s.
Proof. intros C s H K. eapply Forall_impl; [|exact K]. exact H. Qed.
Lemma unreserved_small : forall x, c_unreserved x -> (x < 128)%N.
Proof. intros x H. apply reg_small. now left. Qed.
Lemma sub_small : forall x, c_sub_delims x -> (x < 128)%N.
Proof. intros x H. apply reg_small. now right. Qed.
Lemma gen_small : forall x, among (bs ":/?#[]@") x -> (x < 128)%N.
Proof. intros x H. eapply among_small; [|exact H]. reflexivity. Qed.
Lemma single_collects : forall p (C : N -> Prop) (g : gen N) n s, single p C -> (forall x, C x -> x < 128)%N -> (forall x, g x -> C x) ->
  repeat_gen_of_char n g s -> collects (p_many1 p) s.
Proof.
  intros p C g n s Hp Hs Hg H. destruct (g_chars C Hg H) as (F & Hne & _). destruct (single_many Hp F Hne Hs) as [v A].
  eapply collects_acc; [exact A|now apply chars_ascii with C].
Qed.
Theorem C117_basic : forall s,
  (pchar_gen 1 254 s -> collects (p_many1 pchar) s) /\
  (pct_encoded_gen s -> collects (p_many1 pct_encoded) s) /\
  (unreserved_gen 254 s -> collects (p_many1 unreserved) s) /\
  (reserved_gen 254 s -> collects (p_many1 reserved) s) /\
  (gen_delims_gen 254 s -> collects (p_many1 gen_delims) s) /\
  (sub_delims_gen 254 s ->
    parse (p_map_res (p_collect (p_skip_right (p_many1 sub_delims) (@p_end N))) from_utf8) s = Success s (length s)).
Proof.
  intros s. repeat split; intros H.
  - destruct (g_pchar H) as [E Hne]. specialize (Hne ltac:(lia)). destruct (enc_chain [] p_pchar E) as (vs & K & L).
    eapply collects_acc; [eapply a_many1; [exact K|now apply p_pchar|auto]|]. eapply enc_plain; [exact E|apply pchar_small].
  - destruct (g_pct H) as (a & b & Ha & Hb & ->). eapply collects_acc.
    + eapply a_many1 with (vs := [[chr "%"; a; b]]); [|now apply r_pct|discriminate]. rewrite <- (app_nil_r [chr "%"; a; b]).
      constructor; [now apply a_pct|discriminate|constructor].
    + repeat constructor; cbn; unfold hexdig in *; lia.
  - eapply single_collects; [apply s_unreserved|apply unreserved_small|apply g_unreserved|exact H].
  - eapply single_collects; [apply s_reserved| | |exact H].
    + intros x [K|K]; [now apply gen_small|now apply sub_small].
    + intros x ([|] & _ & K); [now left|now right].
  - eapply single_collects; [apply s_gen|apply gen_small| |exact H]. auto.
  - destruct (g_chars c_sub_delims (fun x K => K) H) as (F & Hne & _). destruct (single_many s_sub F Hne sub_small) as [v A].
    apply acc_parse. eapply a_map_res; [eapply a_collect, whole_acc, A|]. apply ascii_utf8. exact (@chars_ascii c_sub_delims s sub_small F).
Qed.

(** ** Fragments, schemes, ports, octets, IPv4 addresses, user information *)
Lemma g_fragment_enc : forall s, fragment_gen s -> enc c_fragment s /\ s <> [].
Proof.
  intros s H. eapply (@g_repeat1 _ c_fragment); [exact H|].
  alts; intros x K.
  - destruct (g_pchar K) as [E Hne]. split; [eapply enc_w; [|exact E]; intros y; now left|apply Hne; lia].
  - eapply g_into_part; [|exact K]. intros y Hy. now right.
Qed.
Lemma g_scheme_text : forall s, scheme_gen s -> g_scheme s s.
Proof.
  intros s (t & Ht & c & Hc & ->). split; [reflexivity|]. exists c, t. split; [reflexivity|]. split; [now apply g_alpha|].
  eapply (@g_chars _ (fun c => alpha c \/ digit c \/ among (bs "+-.") c)); [|exact Ht]. alts; intros x K.
  - left. now apply g_alpha.
  - right. left. now apply g_digit.
  - right. right. rewrite K. now left.
  - right. right. rewrite K. right. now left.
  - right. right. rewrite K. right. right. now left.
Qed.
Lemma g_octet_text : forall s, dec_octet_gen s -> exists v, octet v s.
Proof. intros s (v & Hv & ->). exists v. apply show_dec_octet. unfold choose in Hv. lia. Qed.
Lemma g_ipv4_text : forall s, ipv4_address_gen s -> exists a, g_ipv4 a s.
Proof.
  intros s (l & K & ->). destruct (g_list (fun s => exists v, octet v s) g_octet_text K) as [F L].
  destruct l as [|a [|b [|c [|d [|e l]]]]]; try discriminate. inv F. inv H2. inv H4. inv H5. destruct H1 as [va Ha], H3 as [vb Hb], H2 as [vc Hc], H4 as [vd Hd].
  eexists. cbn [join]. econstructor; eassumption.
Qed.
Lemma g_port_text : forall s, port_gen s -> exists n, g_port n s /\ show_dec n = s.
Proof.
  intros s (n & Hn & ->). exists n. split; [|reflexivity]. destruct (show_dec_canonical n) as (Hd & Hne & _). unfold choose in Hn.
  repeat split; [exact Hd|exact Hne|apply show_dec_value|lia].
Qed.
Lemma g_user_text : forall s, user_info_gen s -> exists u, g_user u s.
Proof.
  set (g := repeat_gen_of_string 1 5 (frequency [unreserved_gen 1; pct_encoded_gen; sub_delims_gen 1])).
  assert (G : forall s, g s -> enc c_reg s /\ s <> []).
  { intros s H. eapply (@g_repeat1 _ c_reg); [exact H|]. alts; intros x K.
    - destruct (g_chars c_unreserved g_unreserved K) as (F & N & _). split; [|exact N]. apply chars_enc. eapply Forall_impl; [|exact F]. now left.
    - now apply g_pct_part.
    - destruct (g_chars c_sub_delims (fun x K => K) K) as (F & N & _). split; [|exact N]. apply chars_enc. eapply Forall_impl; [|exact F]. now right. }
  intros s ([|] & _ & H).
  - destruct H as (s1 & H1 & s2 & H2 & ->). apply G in H1, H2. eexists. apply gu_pass; [apply H1|apply H2|apply H2].
  - apply G in H. eexists. apply gu_name. apply H.
Qed.
Theorem C117_parts : forall s,
  (fragment_gen s -> collects fragment s) /\
  (scheme_gen s -> passes scheme (fun v => v) s) /\
  (port_gen s -> passes port show_dec s) /\
  (dec_octet_gen s -> passes dec_octet show_dec s) /\
  (ipv4_address_gen s -> passes ip_v4_address show_ipv4 s) /\
  (user_info_gen s -> passes user_info_p show_user s).
Proof.
  intros s. repeat split; intros H.
  - apply g_fragment_enc in H. destruct H as [H _]. eapply collects_acc; [now apply a_fragment|]. eapply enc_plain; [exact H|apply fragment_small].
  - eapply passes_acc; [apply a_scheme; [now apply g_scheme_text|exact I]|reflexivity].
  - apply g_port_text in H. destruct H as (n & H & E). eapply passes_acc; [apply a_port; [exact H|exact I]|exact E].
  - apply g_octet_text in H. destruct H as [v H]. eapply passes_acc; [apply a_octet_stop; [exact H|exact I]|]. now apply octet_show.
  - apply g_ipv4_text in H. destruct H as [a H]. eapply passes_acc; [apply a_ipv4; [exact H|exact I]|]. now apply ipv4_show.
  - apply g_user_text in H. destruct H as [u H]. eapply passes_acc; [apply a_user; [exact H|exact I|intros; exact I]|]. now apply user_show.
Qed.

(** ** Paths and queries *)
Lemma g_slashes : forall min max (g : gen bytes) s, (forall x, g x -> g_seg x) -> repeat_gen_of_string min max g s ->
  exists l, Forall g_seg l /\ s = List.concat l /\ ((1 <= min)%N -> l <> []).
Proof.
  intros min max g s H (n & Hn & l & K & ->). destruct (g_list g_seg H K) as [F L]. exists l. split; [exact F|]. split; [reflexivity|].
  intros Hm. unfold choose in Hn. destruct l; [cbn in L; lia|discriminate].
Qed.
Lemma g_segment : forall x, g_map segment_gen (fun s => bs "/" ++ s) x -> g_seg x.
Proof. intros x (t & Ht & ->). exists t. split; [reflexivity|]. apply (g_pchar Ht). Qed.
Lemma g_abempty : forall s, path_abempty_gen s -> exists l, Forall g_seg l /\ s = List.concat l /\ l <> [].
Proof. intros s H. destruct (g_slashes g_segment H) as (l & F & E & Hne). exists l. repeat split; auto. apply Hne. lia. Qed.
Lemma g_nz : forall s, segment_nz_gen s -> enc c_pchar s /\ s <> [].
Proof. intros s H. destruct (g_pchar H) as [E Hne]. split; [exact E|apply Hne; lia]. Qed.
(** The text of path_absolute_gen: a slash, a character and the rest of its segment, further segments. *)
Lemma g_absolute : forall s, path_absolute_gen s -> exists l, rfc_absolute l s /\ Forall g_seg (tl (tl l)) /\ exists l', Forall g_seg l' /\ l' <> [] /\
  s = List.concat l' /\ ~ exists t, s = bs "//" ++ t.
Proof.
  intros s (s1 & (n & Hn & l1 & [L1 F1] & ->) & s2 & H2 & ->). unfold choose in Hn.
  apply g_abempty in H2. destruct H2 as (l2 & F2 & -> & _).
  destruct F1 as [|x l1 (t & Ht & ->) F1]; [cbn in L1; lia|]. apply g_nz in Ht. destruct Ht as [Ht Hne].
  assert (F : Forall g_seg l1).
  { eapply Forall_impl; [|exact F1]. intros y (u & Hu & ->). exists u. split; [reflexivity|]. now apply g_nz. }
  assert (F' : Forall g_seg (l1 ++ l2)) by (apply Forall_app; auto).
  match goal with |- exists l, rfc_absolute l ?u /\ _ => replace u with (bs "/" ++ t ++ List.concat (l1 ++ l2)) by (cbn; now rewrite concat_app, app_assoc) end.
  exists (bs "/" :: t :: l1 ++ l2). split; [|split; [exact F'|]].
  - now apply ra_segs.
  - exists ((bs "/" ++ t) :: l1 ++ l2). split; [constructor; [exists t; auto|exact F']|]. split; [discriminate|].
    split; [reflexivity|]. intros (u & E). cbn in E. inv E. destruct Ht as [|x t Hx _|]; [congruence| |discriminate].
    inv H0. revert Hx. lit_class.
Qed.
Lemma g_nc_piece : forall s, segment_nz_nc_gen s -> enc c_nc s /\ s <> [].
Proof.
  intros s H. eapply (@g_repeat1 _ c_nc); [exact H|]. alts; intros x K.
  - eapply g_into_part; [|exact K]. intros y Hy. left. left. now apply g_unreserved.
  - now apply g_pct_part.
  - eapply g_into_part; [|exact K]. intros y Hy. left. now right.
  - rewrite K. split; [apply enc_chr; [right; now left|constructor]|discriminate].
Qed.
Lemma g_no_scheme : forall s, path_no_scheme_gen s -> exists l, rfc_noscheme l s.
Proof.
  intros s (s1 & H1 & s2 & H2 & ->). apply g_nc_piece in H1. destruct (g_slashes g_segment H2) as (l & F & -> & _).
  exists (s1 :: l). constructor; [apply H1|apply H1|exact F].
Qed.
Lemma g_rootless : forall s, path_rootless_gen s -> exists l, rfc_rootless l s.
Proof.
  intros s (s1 & H1 & s2 & H2 & ->). apply g_nz in H1. destruct (g_slashes g_segment H2) as (l & F & -> & _).
  exists (s1 :: l). constructor; [apply H1|apply H1|exact F].
Qed.
Lemma noscheme_rootless : forall l s, rfc_noscheme l s -> rfc_rootless l s.
Proof. intros l s H. destruct H as [s l H1 H2 H3]. constructor; [eapply enc_w; [apply nc_pchar|exact H1]|exact H2|exact H3]. Qed.
Lemma rootless_show : forall l s, rfc_rootless l s -> List.concat l = s.
Proof. intros l s H. now destruct H. Qed.
Definition show_path_opt (o : option path) : bytes := show_opt show_path o.
Lemma a_path_rootless : forall l s, rfc_rootless l s -> acc path_p s [] (Some (RootlessPath l)).
Proof. intros l s H pre. now apply (@C96_path_accepts pre s [] l I). Qed.
Lemma a_path_abempty : forall l, Forall g_seg l -> l <> [] -> acc path_p (List.concat l) [] (Some (AbemptyPath l)).
Proof. intros l H Hne pre. apply (@C96_path_accepts pre (List.concat l) [] l I); [constructor; exact H|exact Hne]. Qed.
Theorem C117_paths : forall s,
  (path_with_abempty_gen s -> passes path_p show_path_opt s) /\
  (path_abempty_gen s -> passes (path_abempty true) show_path s) /\
  (path_absolute_gen s -> passes path_absolute show_path s) /\
  (path_no_scheme_gen s -> passes path_noscheme show_path s) /\
  (path_rootless_gen s -> passes path_rootless show_path s).
Proof.
  intros s. repeat split.
  - revert s. alts; intros s H.
    + apply g_abempty in H. destruct H as (l & F & -> & Hne). eapply passes_acc; [now apply a_path_abempty|reflexivity].
    + apply g_absolute in H. destruct H as (_ & _ & _ & l & F & Hne & -> & _). eapply passes_acc; [now apply a_path_abempty|reflexivity].
    + apply g_no_scheme in H. destruct H as [l H]. apply noscheme_rootless in H. eapply passes_acc; [apply a_path_rootless, H|now apply rootless_show].
    + apply g_rootless in H. destruct H as [l H]. eapply passes_acc; [apply a_path_rootless, H|now apply rootless_show].
    + rewrite H. exists None. split; reflexivity.
  - intros H. apply g_abempty in H. destruct H as (l & F & -> & Hne). eapply passes_acc; [apply e_abempty; [exact F|auto|exact I]|reflexivity].
  - intros H. apply g_absolute in H. destruct H as (l & H & _). eapply passes_acc; [apply e_absolute; [exact H|exact I]|].
    destruct H; [reflexivity|reflexivity].
  - intros H. apply g_no_scheme in H. destruct H as [l H]. eapply passes_acc; [apply e_noscheme; [exact H|exact I]|].
    apply rootless_show. now apply noscheme_rootless.
  - intros H. apply g_rootless in H. destruct H as [l H]. eapply passes_acc; [apply e_rootless; [exact H|exact I]|now apply rootless_show].
Qed.

Lemma g_query_part : forall min max s, pchar_without_eq_amp_gen min max s -> enc c_query s /\ ((1 <= min)%N -> s <> []).
Proof.
  intros min max s H. eapply g_repeat; [|exact H]. alts; intros x K.
  - eapply g_into_part; [|exact K]. intros y Hy. left. now apply g_unreserved.
  - now apply g_pct_part.
  - eapply g_into_part; [|exact K]. intros y Hy. right. now left.
  - eapply g_into_part; [|exact K]. intros y Hy. right. right. now left.
Qed.
Lemma params_join : forall l, l <> [] -> Forall (fun s => exists q, g_params q s) l -> exists q, g_params q (join (bs "&") l).
Proof.
  intros l Hne H. destruct H as [|s l Hs H]; [congruence|]. clear Hne. revert s Hs. induction H as [|t l Ht H IH]; intros s [q Hq].
  - exists q. exact Hq.
  - destruct (IH t Ht) as [r Hr]. exists (q ++ r). change (join (bs "&") (s :: t :: l)) with (s ++ bs "&" ++ join (bs "&") (t :: l)).
    clear -Hq Hr. induction Hq as [kv s K|kv s q u K _ IH]; [now constructor|]. cbn [app]. rewrite <- !app_assoc. now constructor.
Qed.
Lemma g_query_text : forall s, query_gen s -> exists q, g_params q s.
Proof.
  intros s (l & [L F] & ->). apply params_join; [destruct l; [discriminate|discriminate]|]. eapply Forall_impl; [|exact F]. clear.
  intros s (k & Hk & vl & [L F] & ->). apply g_query_part in Hk. apply params_join; [destruct vl; discriminate|]. clear L.
  induction F as [|v vl Hv F IH]; [constructor|]. cbn [map]. constructor; [|exact IH]. apply g_query_part in Hv. eexists. apply gq_one. now apply gq_kv.
Qed.
Theorem C117_query : forall s,
  (pchar_without_eq_amp_gen 1 254 s -> passes query_p show_query s) /\ (query_gen s -> passes query_p show_query s).
Proof.
  intros s. split; intros H.
  - apply g_query_part in H. eapply passes_acc; [apply a_query; [apply gq_one, gq_key, H|exact I]|reflexivity].
  - apply g_query_text in H. destruct H as [q H]. eapply passes_acc; [apply a_query; [exact H|exact I]|now apply params_show].
Qed.

(** ** IPv6 addresses (ip_v6_address_parsers.rs 393-589) *)
(** The check of the tests of addresses: the parser's value is that of s.parse::<Ipv6Addr>().unwrap(). *)
Definition passes6 (p : parser N ipv6) (s : bytes) : Prop :=
  exists a, std_v6_parse s = inl a /\ parse (p_skip_right p (@p_end N)) s = Success a (length s).
Lemma passes6_acc : forall p a s, ipv6_text a s -> acc p s [] a -> passes6 p s.
Proof. intros p a s H K. exists a. split; [now apply std_v6_complete|]. apply acc_parse. now apply whole_acc. Qed.
Definition is_group (s : bytes) : Prop := exists v, group v s.
Lemma g_h16_text : forall s, h16_gen s -> exists v, segment v /\ s = show_hex v.
Proof.
  intros s (v & (l & (n & Hn & H) & ->) & ->). exists (hex_value l). split; [|reflexivity]. destruct (g_chars hexdig g_hex H) as (F & Hne & L).
  unfold choose in Hn. apply (@group_segment (hex_value l) l). split; [exact F|]. split; [|reflexivity]. destruct l; [congruence|]. cbn in *. lia.
Qed.
Lemma g_h16_group : forall s, h16_gen s -> is_group s.
Proof. intros s H. apply g_h16_text in H. destruct H as (v & Hv & ->). exists v. now apply show_hex_group. Qed.
Lemma g_ls32_last : forall s, ls32_gen s -> exists us, last32 us s.
Proof.
  alts; intros s H.
  - apply g_ipv4_text in H. destruct H as ([[[a b] c] d] & H). eexists. eapply l32_ipv4, H.
  - destruct H as (l & K & ->). destruct (g_list is_group g_h16_group K) as [F L]. destruct l as [|s [|t [|u l]]]; try discriminate.
    inv F. inv H2. destruct H1 as [v Hv], H3 as [w Hw]. eexists. cbn [join]. eapply l32_groups; eassumption.
Qed.
Theorem C117_groups : forall s, (h16_gen s -> passes h16 show_h16 s) /\ (ls32_gen s -> passes ls32 show_ls32 s).
Proof.
  intros s. split; [intros H|revert s; alts; intros s H].
  - apply g_h16_text in H. destruct H as (v & Hv & ->). eapply passes_acc; [apply a_h16; [now apply show_hex_group|exact I]|reflexivity].
  - apply g_ipv4_text in H. destruct H as [a H]. eapply passes_acc with (v := Ls32Ipv4 a); [|now apply ipv4_show].
    unfold ls32. apply a_or2; [|eapply a_map_eq; [apply a_ipv4; [exact H|exact I]|reflexivity]].
    eapply r_attempt, r_map, r_and1. destruct (ipv4_group H) as (w & g & t & -> & Hg). rewrite <- app_assoc.
    eapply r_skip_right2; [apply a_h16; [exact Hg|reflexivity]|]. apply r_elm. discriminate.
  - destruct H as (l & K & ->). destruct (g_list (fun s => exists v, segment v /\ s = show_hex v) g_h16_text K) as [F L].
    destruct l as [|s [|t [|u l]]]; try discriminate. inv F. inv H2. destruct H1 as (v & Hv & ->), H3 as (w & Hw & ->). cbn [join].
    eapply passes_acc with (v := Ls32 v w); [|reflexivity]. unfold ls32. apply a_or1, a_attempt. eapply a_map_eq with (v := (v, w)); [|reflexivity].
    rewrite app_assoc. eapply a_and; [eapply a_skip_right; [apply a_h16; [now apply show_hex_group|reflexivity]|apply a_elm]|].
    apply a_h16; [now apply show_hex_group|exact I].
Qed.
Lemma join_left : forall l, Forall is_group l -> exists vs, left_part vs (join (bs ":") l) /\ length vs = length l.
Proof.
  intros l H. induction H as [|s l [w Hw] H (vs & IH & L)]; [exists []; split; [constructor|reflexivity]|].
  destruct l as [|s2 l]; [exists ([] ++ [w]); split; [exact (lp_cons gc_nil Hw)|reflexivity]|].
  change (join (bs ":") (s :: s2 :: l)) with (s ++ bs ":" ++ join (bs ":") (s2 :: l)). destruct IH as [|vs t v u G K]; [discriminate|].
  exists ((w :: vs) ++ [v]). split; [|cbn in *; lia].
  replace (s ++ bs ":" ++ t ++ u) with ((s ++ bs ":" ++ t) ++ u) by now rewrite <- !app_assoc. constructor; [|exact K]. now constructor.
Qed.
Lemma join_colon : forall n l, list_of_n (N.of_nat (S n)) h16_gen l -> exists vs, groups_colon vs (join (bs ":") l ++ bs ":") /\ length vs = S n.
Proof.
  intros n l K. destruct (g_list is_group g_h16_group K) as [F L]. destruct (join_left F) as (vs & H & E).
  destruct (left_colon H) as [[-> _]|[_ G]]; [cbn in E; lia|]. exists vs. split; [exact G|lia].
Qed.
Lemma join_left_n : forall n l, list_of_n n h16_gen l -> exists vs, left_part vs (join (bs ":") l) /\ length vs = N.to_nat n.
Proof. intros n l K. destruct (g_list is_group g_h16_group K) as [F L]. destruct (join_left F) as (vs & H & E). exists vs. split; [exact H|lia]. Qed.
Lemma g_left : forall n s, left_gen n s -> exists vs, left_part vs s /\ length vs <= Nat.max 1 (N.to_nat n).
Proof.
  intros n s ([|] & _ & H); [|rewrite H; exists []; split; [constructor|cbn; lia]]. revert s H. alts; intros s H.
  - destruct (g_h16_group H) as [v K]. exists ([] ++ [v]). split; [exact (lp_cons gc_nil K)|cbn [app length]; lia].
  - destruct H as (l & K & ->). destruct (join_left_n K) as (vs & H & E). exists vs. split; [exact H|lia].
Qed.
Lemma colon_items : forall l, Forall (g_map h16_gen (fun v => v ++ bs ":")) l -> exists vs, groups_colon vs (List.concat l) /\ length vs = length l.
Proof.
  intros l H. induction H as [|x l (s & Hs & ->) _ (vs & IH & L)]; [exists []; split; [constructor|reflexivity]|].
  destruct (g_h16_group Hs) as [v Hv]. exists (v :: vs). split; [|cbn; lia]. cbn [List.concat]. rewrite <- app_assoc. now constructor.
Qed.
Lemma g_right : forall m s0 s, right_gen m s0 s -> exists rs t, right_part rs t /\ length rs = N.to_nat m + 2 /\ s = s0 ++ bs "::" ++ t.
Proof.
  intros m s0 s (s1 & (s2 & (u & (l & [L F] & ->) & ->) & s3 & H3 & ->) & ->). destruct (colon_items F) as (vs & G & E).
  destruct (g_ls32_last H3) as [us K]. exists (vs ++ us), (List.concat l ++ s3). split; [now apply rp_last|].
  split; [rewrite app_length, (last32_length K); lia|now rewrite <- app_assoc].
Qed.
(** The text is an address of the shape of the grammar, and is not refused for its seven groups. *)
Lemma short_text : forall ls s rs t, left_part ls s -> right_part rs t -> length ls + length rs <= 7 ->
  ipv6_text (ls ++ repeat 0%N (8 - length ls - length rs) ++ rs) (s ++ bs "::" ++ t).
Proof. intros ls s rs t HL HR HN. now constructor. Qed.
Ltac short := eapply passes6_acc; [eapply short_text; [eassumption|eassumption|]|].
Theorem C117_addresses : forall s,
  (ipv6_address_gen1 s -> passes6 ip_v6_address1 s) /\
  (ipv6_address_gen2 s -> passes6 ip_v6_address2 s) /\
  (ipv6_address_gen3 s -> passes6 ip_v6_address3 s) /\
  (ipv6_address_gen4 s -> passes6 (ip_v6_address4 std_v6_parse) s) /\
  (ipv6_address_gen5 s -> passes6 (ip_v6_address5 std_v6_parse) s) /\
  (ipv6_address_gen6 s -> passes6 (ip_v6_address6 std_v6_parse) s) /\
  (ipv6_address_gen7 s -> passes6 (ip_v6_address7 std_v6_parse) s) /\
  (ipv6_address_gen8 s -> passes6 (ip_v6_address8 std_v6_parse) s) /\
  (ipv6_address_gen9 s -> passes6 (ip_v6_address9 std_v6_parse) s).
Proof.
  intros s. repeat split.
  - intros (l & Hl & t & Ht & ->). destruct (@join_colon 5 l Hl) as (vs & G & E). destruct (g_ls32_last Ht) as [us K]. rewrite app_assoc.
    assert (R : right_part (vs ++ us) ((join (bs ":") l ++ bs ":") ++ t)) by now apply rp_last.
    assert (L : length (vs ++ us) = 8) by (rewrite app_length, (last32_length K); lia).
    eapply passes6_acc; [eapply t6_full; [exact R|exact L]|]. now apply a_v6_1.
  - intros (l & Hl & t & Ht & ->). destruct (@join_colon 4 l Hl) as (vs & G & E). destruct (g_ls32_last Ht) as [us K].
    assert (R : right_part (vs ++ us) ((join (bs ":") l ++ bs ":") ++ t)) by now apply rp_last.
    assert (L : length (vs ++ us) = 7) by (rewrite app_length, (last32_length K); lia).
    replace (bs "::" ++ join (bs ":") l ++ bs ":" ++ t) with ([] ++ bs "::" ++ ((join (bs ":") l ++ bs ":") ++ t)) by now rewrite <- !app_assoc.
    pose proof lp_nil as HL. short; [cbn [length]; lia|]. eapply a_alt2; try eassumption; try exact I; cbn [length]; lia.
  - intros (l & [L F] & t & Ht & ->). destruct F as [|x l Hx F]; [discriminate|]. cbn [hd tl]. destruct (@join_colon 3 l) as (vs & G & E).
    { split; [cbn in L; lia|exact F]. }
    destruct (g_ls32_last Ht) as [us K]. destruct (g_h16_group Hx) as [v Hv].
    assert (R : right_part (vs ++ us) ((join (bs ":") l ++ bs ":") ++ t)) by now apply rp_last.
    assert (L' : length (vs ++ us) = 6) by (rewrite app_length, (last32_length K); lia).
    rewrite (app_assoc (join (bs ":") l)).
    assert (HL : left_part ([] ++ [v]) ([] ++ x)) by exact (lp_cons gc_nil Hv). cbn [app] in HL.
    short; [cbn [length]; lia|]. eapply a_alt3; try eassumption; try exact I; cbn [length]; lia.
  - intros (s0 & Hl & Hr). destruct (g_left Hl) as (ls & HL & L). destruct (g_right Hr) as (rs & t & HR & L' & ->).
    short; [lia|]. apply a_altm; try assumption; try exact I; try lia. apply std_v6_complete.
  - intros (s0 & Hl & Hr). destruct (g_left Hl) as (ls & HL & L). destruct (g_right Hr) as (rs & t & HR & L' & ->).
    short; [lia|]. apply a_altm; try assumption; try exact I; try lia. apply std_v6_complete.
  - intros (s0 & Hl & Hr). destruct (g_left Hl) as (ls & HL & L). destruct (g_right Hr) as (rs & t & HR & L' & ->).
    short; [lia|]. apply a_altm; try assumption; try exact I; try lia. apply std_v6_complete.
  - intros (s0 & Hl & t & Ht & ->). destruct (g_left Hl) as (ls & HL & L). destruct (g_ls32_last Ht) as [us K].
    assert (HR : right_part ([] ++ us) ([] ++ t)) by exact (rp_last gc_nil K). cbn [app] in HR. pose proof (last32_length K) as L'.
    short; [lia|]. apply a_alt7; try assumption; try exact I; try lia. apply std_v6_complete.
  - intros (s0 & Hl & t & Ht & ->). destruct (g_left Hl) as (ls & HL & L). destruct (g_h16_group Ht) as [v Hv].
    assert (HR : right_part ([] ++ [v]) ([] ++ t)) by (apply rp_left; exact (lp_cons gc_nil Hv)). cbn [app] in HR.
    short; [cbn [length]; lia|]. apply a_alt8; try assumption; try exact I; try (cbn [length]; lia). apply std_v6_complete.
  - intros (s0 & Hl & ->). destruct (g_left Hl) as (ls & HL & L). rewrite <- (app_nil_r (bs "::")).
    assert (HR : right_part [] []) by (apply rp_left; constructor).
    short; [cbn [length]; lia|]. apply a_alt9; try assumption; try exact I; try (cbn [length]; lia). apply std_v6_complete.
Qed.
(** The generator of addresses never panics on its unwrap, and the parser reads what it prints. *)
Definition any_address_gen : gen bytes :=
  frequency [ipv6_address_gen1; ipv6_address_gen2; ipv6_address_gen3; ipv6_address_gen4; ipv6_address_gen5;
             ipv6_address_gen6; ipv6_address_gen7; ipv6_address_gen8; ipv6_address_gen9].
Lemma g_v6_text : forall s, ipv6_address_gen s -> exists i, s = std_v6_show i /\ v6_text i s.
Proof.
  intros s (t & _ & i & E & ->). exists i. split; [reflexivity|]. apply std_v6_sound, ipv6_value in E. now apply std_show_text.
Qed.
Theorem C117_address : forall s, (any_address_gen s -> exists i, std_v6_parse s = inl i /\ ipv6_address_gen (std_v6_show i)) /\
  (ipv6_address_gen s -> passes6 (ip_v6_address std_v6_parse) s).
Proof.
  intros s. split.
  - intros H. assert (K : exists i, std_v6_parse s = inl i).
    { revert s H. alts; intros s H; apply C117_addresses in H; destruct H as (i & E & _); eauto. }
    destruct K as [i E]. exists i. split; [exact E|]. exists s. split; [exact H|eauto].
  - intros H. apply g_v6_text in H. destruct H as (i & _ & H). eapply passes6_acc; [apply H|]. apply a_v6; [apply std_v6_complete|exact I|exact H].
Qed.

(** ** Hosts (host_parsers.rs 100-161) *)
Lemma g_reg_text : forall s, reg_name_gen s -> part c_reg s.
Proof. intros s H. eapply g_repeat1; [exact H|]. apply g_reg_piece. Qed.
Lemma g_future_text : forall s, ip_v_future_gen s -> future_text s.
Proof.
  intros s (s1 & H1 & s2 & H2 & ->). destruct (g_chars hexdig g_hex H1) as (F1 & N1 & _).
  assert (H : Forall (fun c => c_reg c \/ c = chr ":") s2 /\ s2 <> [] /\ length s2 <= N.to_nat 5).
  { eapply g_chars; [|exact H2]. alts; intros x K; [left; left; now apply g_unreserved|left; now right|now right]. }
  destruct H as (F2 & N2 & _). exists s1, s2. repeat split; assumption.
Qed.
Definition show_literal := show_ip_literal std_v6_show.
Lemma g_literal_text : forall s, ip_literal_gen s -> exists l, g_host v6_text (IpLiteral l) s /\ show_literal l = s.
Proof.
  intros s (t & H & ->). revert t H. alts; intros t H.
  - apply g_v6_text in H. destruct H as (i & -> & H). exists (Ipv6Address i). split; [now apply gh_v6|reflexivity].
  - apply g_future_text in H. destruct H as (h & u & -> & H1 & H2 & H3 & H4). eexists. split; [now apply gh_future|reflexivity].
Qed.
Lemma a_literal : forall l s rest, g_host v6_text (IpLiteral l) s -> acc (ip_literal_p std_v6_parse) s rest l.
Proof.
  intros l s rest H. unfold ip_literal_p. apply a_name. inv H.
  - rewrite app_assoc. eapply a_skip_right; [|apply a_elm_ref]. eapply a_skip_left; [apply a_elm_ref|]. apply a_or1, a_attempt.
    eapply a_map_eq; [|reflexivity]. apply (a_v6_bracket std_v6_parse std_v6_complete). assumption.
  - rewrite app_assoc. eapply a_skip_right; [|apply a_elm_ref]. eapply a_skip_left; [apply a_elm_ref|]. apply a_or2.
    + cbn [app bs]. apply r_v6_v.
    + eapply a_map_eq; [|reflexivity]. apply a_future. do 2 eexists. repeat split; [..|eassumption]; assumption.
Qed.
Theorem C117_names : forall s,
  (ip_v_future_gen s -> passes ip_v_future (fun v => v) s) /\
  (reg_name_gen s -> passes reg_name (show_host std_v6_show) s) /\
  (ip_literal_gen s -> passes (ip_literal_p std_v6_parse) show_literal s).
Proof.
  intros s. repeat split; intros H.
  - apply g_future_text in H. eapply passes_acc; [apply a_future_at; [exact I|exact H]|reflexivity].
  - apply g_reg_text in H. destruct H as [H Hne]. eapply passes_acc with (v := RegName s); [|reflexivity]. unfold reg_name. apply a_name.
    eapply a_map_eq; [|reflexivity]. apply a_to_string; [eapply a_enc1; [apply p_reg|exact H|exact Hne|exact I]|]. eapply enc_plain; [exact H|apply reg_small].
  - apply g_literal_text in H. destruct H as (l & H & E). eapply passes_acc; [apply a_literal; exact H|exact E].
Qed.

(** Registered names that do not start with an IPv4 address or are one. *)
Definition clear (s : bytes) : Prop := ~ starts_ipv4 s \/ exists a, g_ipv4 a s.
Definition clear_name_gen : gen bytes := fun s => reg_name_gen s /\ clear s.
Lemma g_host_text : forall s, host_gen_of clear_name_gen s -> exists h, g_host v6_text h s /\ plain_host h /\ show_host std_v6_show h = s.
Proof.
  alts; intros s H.
  - apply g_literal_text in H. destruct H as (l & H & E). exists (IpLiteral l). repeat split; [exact H|exact E].
  - apply g_ipv4_text in H. destruct H as [a H]. exists (Ipv4Address a). repeat split; [now apply gh_v4|now apply ipv4_show].
  - destruct H as [H [K|[a K]]].
    + apply g_reg_text in H. destruct H. exists (RegName s). repeat split; [now apply gh_reg|exact K].
    + exists (Ipv4Address a). repeat split; [now apply gh_v4|now apply ipv4_show].
Qed.
(** An octet may be extended to the longest one. *)
Lemma longest_octet : forall k r v s, 3 - length s <= k -> octet v s ->
  exists w t r', octet w (s ++ t) /\ r = t ++ r' /\ (forall x t2 r2, r' = t2 ++ r2 -> t2 <> [] -> ~ octet x ((s ++ t) ++ t2)).
Proof.
  intros k r. revert r.
  assert (B : forall v s, octet v s -> 1 <= length s <= 3).
  { intros v s H. assert (K : octet_ok s = true) by (apply octet_iff; eauto). destruct s as [|a [|b [|c [|d s]]]]; try discriminate; cbn; lia. }
  assert (D : forall r v s, octet v s -> (forall x t2 r2, r = t2 ++ r2 -> t2 <> [] -> ~ octet x (s ++ t2)) \/
    exists x t2 r2, r = t2 ++ r2 /\ t2 <> [] /\ octet x (s ++ t2)).
  { intros r v s H.
    destruct (octet_ok (s ++ firstn 1 r)) eqn:E1; [destruct r as [|y r]|].
    - left. intros x t2 r2 E Hne. destruct t2; [congruence|discriminate].
    - right. apply octet_iff in E1. destruct E1 as [x E1]. exists x, [y], r. split; [reflexivity|]. split; [discriminate|exact E1].
    - destruct (octet_ok (s ++ firstn 2 r)) eqn:E2.
      + right. apply octet_iff in E2. destruct E2 as [x E2]. destruct r as [|y [|z r]].
        * cbn in E1. exfalso. rewrite app_nil_r in E1. assert (octet_ok s = true) by (apply octet_iff; eauto). congruence.
        * exfalso. cbn in *. assert (octet_ok (s ++ [y]) = true) by (apply octet_iff; eauto). congruence.
        * exists x, [y; z], r. split; [reflexivity|]. split; [discriminate|exact E2].
      + left. intros x t2 r2 -> Hne K. pose proof (B _ _ K) as L. pose proof (B _ _ H) as L'. rewrite app_length in L.
        assert (O : octet_ok (s ++ t2) = true) by (apply octet_iff; eauto).
        destruct t2 as [|y [|z [|? t2]]]; [congruence| | |cbn in L; lia].
        * cbn in E1. congruence.
        * cbn in E2. congruence. }
  induction k as [|k IH]; intros r v s L H.
  - destruct (D r v s H) as [K|(x & t2 & r2 & -> & Hne & K)].
    + exists v, [], r. rewrite app_nil_r. split; [exact H|]. split; [reflexivity|exact K].
    + exfalso. apply B in K. rewrite app_length in K. destruct t2; [congruence|cbn in K; lia].
  - destruct (D r v s H) as [K|(x & t2 & r2 & -> & Hne & K)].
    + exists v, [], r. rewrite app_nil_r. split; [exact H|]. split; [reflexivity|exact K].
    + destruct (IH r2 x (s ++ t2)) as (w & t & r' & H1 & -> & H2); [rewrite app_length; destruct t2; [congruence|cbn [length]; lia]|exact K|].
      exists w, (t2 ++ t), r'. rewrite app_assoc. split; [exact H1|]. split; [now rewrite app_assoc|exact H2].
Qed.
(** The parser of IPv4 addresses succeeds on every text that starts with one. *)
Lemma ipv4_reads_start : forall h, starts_ipv4 h -> exists a t r, h = t ++ r /\ g_ipv4 a t /\
  forall rest, match rest with [] => True | x :: _ => ~ digit x end -> acc ip_v4_address t (r ++ rest) a.
Proof.
  intros h (a0 & t0 & r0 & H & ->). destruct H as [a b c d sa sb sc sd Ha Hb Hc Hd].
  destruct (@longest_octet 3 r0 d sd ltac:(lia) Hd) as (w & t & r & Hw & -> & Hmax).
  exists (a, b, c, w), (sa ++ bs "." ++ sb ++ bs "." ++ sc ++ bs "." ++ (sd ++ t)), r. split; [now rewrite <- !app_assoc|].
  split; [now constructor|]. intros rest Hr. unfold ip_v4_address. apply a_name.
  replace (sa ++ bs "." ++ sb ++ bs "." ++ sc ++ bs "." ++ sd ++ t) with ((((((sa ++ bs ".") ++ sb) ++ bs ".") ++ sc) ++ bs ".") ++ (sd ++ t)) by now rewrite <- !app_assoc.
  repeat first [eapply a_and|eapply a_skip_right]; try apply a_elm; try (apply a_octet_stop; [assumption|reflexivity]).
  apply a_octet; [exact Hw|]. intros x t2 r2 E Hne K.
  assert (D : Forall digit t2) by (destruct K as ((K & _) & _); apply Forall_app in K; apply K).
  destruct (@prefix_of digit r t2 r2 rest D Hr E) as (r' & ->). eapply Hmax; [reflexivity|exact Hne|exact K].
Qed.
Lemma starts_dec : forall s, starts_ipv4 s \/ ~ starts_ipv4 s.
Proof.
  intros s. destruct (ip_v4_address s 0) as [a n|e c| |] eqn:E.
  - left. pose proof (@h_ipv4 s 0 ltac:(lia)) as H. rewrite E in H. destruct H as [L H]. cbn [skipn] in H. exists a, (firstn n s), (skipn n s).
    split; [exact H|now rewrite firstn_skipn].
  - right. intros K. destruct (ipv4_reads_start K) as (a & t & r & -> & _ & A). specialize (A [] I []). cbn [app] in A. rewrite app_nil_r in A. cbn in A. congruence.
  - right. intros K. destruct (ipv4_reads_start K) as (a & t & r & -> & _ & A). specialize (A [] I []). cbn [app] in A. rewrite app_nil_r in A. cbn in A. congruence.
  - right. intros K. destruct (ipv4_reads_start K) as (a & t & r & -> & _ & A). specialize (A [] I []). cbn [app] in A. rewrite app_nil_r in A. cbn in A. congruence.
Qed.
(** The rest of such a name is not read. *)
Definition left_over (h : bytes) : Prop := exists a t r, h = t ++ r /\ r <> [] /\
  forall rest, match rest with [] => True | x :: _ => ~ digit x end -> acc (host std_v6_parse) t (r ++ rest) (Ipv4Address a).
Lemma name_cases : forall h, part c_reg h -> clear h \/ left_over h.
Proof.
  intros h [He Hne]. destruct (starts_dec h) as [K|K]; [|left; now left]. destruct (ipv4_reads_start K) as (a & t & r & -> & G & A).
  destruct r as [|x r]; [left; right; exists a; now rewrite app_nil_r|]. right. exists a, t, (x :: r). split; [reflexivity|]. split; [discriminate|].
  intros rest Hr. unfold host. apply a_name, a_or1, a_or2.
  - apply r_literal_hd. destruct (ipv4_chars G) as [Nt Ct]. destruct Ct as [|y t [D| ->] _]; [congruence| |discriminate]. cbn. intros ->. cbv in D. destruct D as [D1 D2]. congruence.
  - apply a_attempt. eapply a_map_eq; [apply A, Hr|reflexivity].
Qed.
Lemma fails_acc : forall A (p : parser N A) show t r v, acc p t r v -> r <> [] -> ~ passes p show (t ++ r).
Proof.
  intros A p show t r v H Hne (w & E & _). unfold parse, p_skip_right in E. specialize (H []). cbn [app length] in H. rewrite H in E. cbn [Nat.add] in E.
  destruct r as [|x r]; [congruence|]. destruct (r_end x r t) as [e K]. rewrite K in E. discriminate.
Qed.
Lemma left_over_fails : forall h, left_over h -> ~ passes (host std_v6_parse) (show_host std_v6_show) h.
Proof.
  intros h (a & t & r & -> & Hne & A). specialize (A [] I). rewrite app_nil_r in A. eapply fails_acc; eassumption.
Qed.
Theorem C117_host_exact : forall s, host_gen s ->
  (passes (host std_v6_parse) (show_host std_v6_show) s <-> host_gen_of clear_name_gen s).
Proof.
  intros s H. split.
  - revert s H. apply (@g_frequency _ _ (fun s => passes (host std_v6_parse) (show_host std_v6_show) s -> host_gen_of clear_name_gen s)).
    repeat apply Forall_cons; [..|apply Forall_nil]; intros s H P.
    + apply Exists_cons_hd. exact H.
    + apply Exists_cons_tl, Exists_cons_hd. exact H.
    + apply Exists_cons_tl, Exists_cons_tl, Exists_cons_hd. split; [exact H|]. destruct (name_cases (g_reg_text H)) as [K|K]; [exact K|].
      exfalso. now apply (left_over_fails K).
  - intros K. apply g_host_text in K. destruct K as (h & G & P & E). eapply passes_acc; [|exact E].
    eapply a_host; [apply (a_v6_bracket std_v6_parse std_v6_complete)|exact G|exact P|exact I].
Qed.

(** ** Authorities (authority_parsers.rs 61-75), hierarchies (hier_part_parsers.rs 61-75), URIs (uri_parsers.rs 70-83) *)
Lemma authority_gen_iff : forall reg s, authority_gen_of reg s <-> exists ou h op, to_option user_info_gen ou /\ host_gen_of reg h /\
  to_option port_gen op /\ s = show_opt (fun s => s ++ bs "@") ou ++ h ++ show_opt (fun s => bs ":" ++ s) op.
Proof.
  intros reg s. split.
  - intros (ou & Hu & hp & (h & Hh & op & Hp & ->) & ->). eauto 10.
  - intros (ou & h & op & Hu & Hh & Hp & ->). exists ou. split; [exact Hu|]. eexists. split; [|reflexivity]. exists h. split; [exact Hh|]. exists op. auto.
Qed.
Lemma g_user_opt : forall ou, to_option user_info_gen ou -> exists u,
  g_opt (fun u s => exists t, g_user u t /\ s = t ++ bs "@") u (show_opt (fun s => s ++ bs "@") ou) /\
  show_opt (fun u => show_user u ++ bs "@") u = show_opt (fun s => s ++ bs "@") ou.
Proof.
  intros ou ([|] & _ & H); [|rewrite H; exists None; split; [constructor|reflexivity]]. destruct H as (s & H & ->). apply g_user_text in H.
  destruct H as [u H]. exists (Some u). split; [constructor; eauto|]. cbn. now rewrite (user_show H).
Qed.
Lemma g_port_opt : forall op, to_option port_gen op -> exists p,
  g_opt (fun n s => exists t, g_port n t /\ s = bs ":" ++ t) p (show_opt (fun s => bs ":" ++ s) op) /\
  show_opt (fun n => bs ":" ++ show_dec n) p = show_opt (fun s => bs ":" ++ s) op.
Proof.
  intros op ([|] & _ & H); [|rewrite H; exists None; split; [constructor|reflexivity]]. destruct H as (s & H & ->). apply g_port_text in H.
  destruct H as (n & H & E). exists (Some n). split; [constructor; eauto|]. cbn [show_opt]. now rewrite E.
Qed.
Lemma g_authority_text : forall s, authority_gen_of clear_name_gen s -> exists a, g_authority v6_text a s /\ plain_host (au_host a) /\
  show_authority std_v6_show a = s.
Proof.
  intros s H. apply authority_gen_iff in H. destruct H as (ou & h & op & Hu & Hh & Hp & ->). destruct (g_user_opt Hu) as (u & U & Eu).
  destruct (g_port_opt Hp) as (p & P & Ep). destruct (g_host_text Hh) as (v & G & Q & Eh). exists (mk_authority v p u).
  split; [now constructor|]. split; [exact Q|]. unfold show_authority. cbn [au_user au_host au_port]. now rewrite Eu, Ep, Eh.
Qed.
(** A parser that stops inside the text, before a character of a name. *)
Definition stuck {A} (p : parser N A) (ds : bytes) (s : bytes) : Prop :=
  exists v t x r, s = t ++ x :: r /\ (c_reg x \/ x = chr "%") /\ forall rest, starts ds rest -> acc p t ((x :: r) ++ rest) v.
Lemma stuck_fails : forall A (p : parser N A) show ds s, stuck p ds s -> ~ passes p show s.
Proof.
  intros A p show ds s (v & t & x & r & -> & _ & H). specialize (H [] I). rewrite app_nil_r in H. eapply fails_acc; [exact H|discriminate].
Qed.
Lemma enc_tail : forall C s, enc C s -> forall t x r, s = t ++ x :: r -> C x \/ x = chr "%" \/ hexdig x.
Proof.
  intros C s H. induction H as [|y s Hy H IH|a b s Ha Hb H IH]; intros t x r E.
  - destruct t; discriminate.
  - destruct t as [|z t]; inv E; [now left|]. eapply IH. reflexivity.
  - destruct t as [|z1 [|z2 [|z3 t]]]; cbn in E; inversion E; subst; auto. eapply IH. reflexivity.
Qed.
Lemma hex_reg : forall x, hexdig x -> c_reg x.
Proof. intros x H. left. unfold c_unreserved, alpha, digit. unfold hexdig in H. lia. Qed.
Lemma reg_not : forall x c, c_reg x \/ x = chr "%" -> b_reg c = false -> c <> chr "%" -> x <> c.
Proof. intros x c [H| ->] H1 H2 E; [subst; apply reg_iff in H; congruence|congruence]. Qed.
Lemma authority_cases : forall s, authority_gen s -> authority_gen_of clear_name_gen s \/ stuck (authority_p std_v6_parse) (bs "/?#") s.
Proof.
  intros s H. apply authority_gen_iff in H. destruct H as (ou & h & op & Hu & Hh & Hp & ->).
  enough (K : host_gen_of clear_name_gen h \/ reg_name_gen h /\ left_over h).
  { destruct K as [K|[N (a & t & r & -> & Hne & A)]]; [left; apply authority_gen_iff; eauto 10|]. right. destruct (g_reg_text N) as [He _].
    destruct (g_user_opt Hu) as (u & U & _). destruct (g_port_opt Hp) as (p & P & _).
    set (su := show_opt (fun s => s ++ bs "@") ou) in *. set (sp := show_opt (fun s => bs ":" ++ s) op) in *.
    destruct r as [|x r]; [congruence|]. pose proof (@enc_tail _ _ He t x r eq_refl) as Hx. clearbody su sp.
    assert (Rx : c_reg x \/ x = chr "%") by (destruct Hx as [Hx|[Hx|Hx]]; [now left|now right|left; now apply hex_reg]). clear Hx.
    exists (mk_authority (Ipv4Address a) None u), (su ++ t), x, (r ++ sp). split; [now rewrite <- !app_assoc|]. split; [exact Rx|].
    intros rest Hr. replace ((x :: r ++ sp) ++ rest) with ((x :: r) ++ sp ++ rest) by (cbn; now rewrite <- app_assoc). unfold authority_p.
    assert (Gh : g_host v6_text (RegName (t ++ x :: r)) (t ++ x :: r)) by (apply gh_reg; [exact He|destruct t; discriminate]).
    eapply a_map_eq with (v := ((u, Ipv4Address a), None)); [|reflexivity]. rewrite <- (app_nil_r (su ++ t)).
    eapply a_and; [eapply a_and|].
    - destruct U as [|u q (w & Hw & ->)].
      + eapply a_opt_none. match goal with |- rej _ ?l _ => replace l with ((t ++ x :: r) ++ sp ++ rest) by (now rewrite <- app_assoc) end. eapply r_user; [exact Gh|exact Hr|]. destruct P as [|n q (w & Hw & ->)]; [now left|right]. exists w. split; [reflexivity|apply Hw].
      + apply a_opt. eapply a_skip_right; [|apply a_elm_ref]. apply a_user; [exact Hw|cbn; lit_stop|]. intros _. cbn. left. discriminate.
    - cbn [app]. apply (A (sp ++ rest)). destruct P as [|n q (w & Hw & ->)]; [|cbv; intros [? ?]; congruence].
      destruct rest as [|y rest]; [exact I|]. cbn. intros D. repeat destruct Hr as [<-|Hr]; try contradiction; cbv in D; destruct D; congruence.
    - eapply a_opt_none, r_skip_left1, r_elm_ref. cbn. apply reg_not; [exact Rx|reflexivity|discriminate]. }
  revert h Hh. apply (@g_frequency _ _ (fun h => host_gen_of clear_name_gen h \/ reg_name_gen h /\ left_over h)).
  repeat apply Forall_cons; [..|apply Forall_nil]; intros h H.
  - left. apply Exists_cons_hd. exact H.
  - left. apply Exists_cons_tl, Exists_cons_hd. exact H.
  - destruct (name_cases (g_reg_text H)) as [K|K]; [|now right]. left. apply Exists_cons_tl, Exists_cons_tl, Exists_cons_hd. now split.
Qed.
Theorem C117_authority_exact : forall s, authority_gen s ->
  (passes (authority_p std_v6_parse) (show_authority std_v6_show) s <-> authority_gen_of clear_name_gen s).
Proof.
  intros s H. split.
  - intros P. destruct (authority_cases H) as [K|K]; [exact K|]. exfalso. now apply (stuck_fails K P).
  - intros K. apply g_authority_text in K. destruct K as (a & G & Q & E). eapply passes_acc; [|exact E].
    eapply a_authority; [apply (a_v6_bracket std_v6_parse std_v6_complete)|exact G|exact Q|exact I].
Qed.

Definition show_hier_opt := show_opt (show_hier std_v6_show).
Lemma g_hier_text : forall b s, hier_part_gen_of clear_name_gen (b, s) -> exists h, g_opt (g_hier v6_text) h s /\ plain_hier h /\
  show_hier_opt h = s.
Proof.
  intros b s ([|] & _ & H).
  - destruct H as (q & (a & Ha & p & Hp & ->) & E). inv E. apply g_authority_text in Ha. destruct Ha as (v & G & Q & E).
    apply g_abempty in Hp. destruct Hp as (l & F & -> & _). exists (Some (mk_hier (Some v) (AbemptyPath l))).
    split; [constructor; now apply ghp_auth|]. split; [exact Q|]. cbn. rewrite E, ?app_nil_r, <- ?app_assoc. reflexivity.
  - revert H. apply (@g_frequency _ _ (fun p => exists h, g_opt (g_hier v6_text) h (snd p) /\ plain_hier h /\ show_hier_opt h = snd p)).
    repeat apply Forall_cons; [..|apply Forall_nil]; clear; intros p H.
    + destruct H as (s & H & ->). cbn [snd]. apply g_absolute in H. destruct H as (_ & _ & _ & l & F & Hne & -> & Hs).
      exists (Some (mk_hier None (AbemptyPath l))). split; [|split; [exact Hs|reflexivity]].
      constructor. apply ghp_path; [now constructor|]. destruct F as [|x l (t & -> & _) _]; [congruence|discriminate].
    + destruct H as (s & H & ->). cbn [snd]. apply g_rootless in H. destruct H as [l H]. destruct H as [s l H1 H2 H3].
      exists (Some (mk_hier None (RootlessPath (s :: l)))). split; [|split; [|reflexivity]].
      * constructor. apply ghp_path; [now constructor|]. destruct s; [congruence|discriminate].
      * intros (u & E). cbn in E. destruct H1 as [|x s Hx _|]; [congruence| |discriminate]. inv E. revert Hx. lit_class.
    + rewrite H. exists None. split; [constructor|]. split; [exact I|reflexivity].
Qed.
Lemma a_abempty_none : forall x r, x <> chr "/" -> acc (path_abempty false) [] (x :: r) (AbemptyPath []).
Proof.
  intros x r H. unfold path_abempty. apply a_name. eapply a_map_eq with (v := []); [|reflexivity].
  eapply a_repeat; [constructor|apply r_to_string, r_slash; exact H|cbn; lia].
Qed.
Lemma hier_cases : forall b s, hier_part_gen (b, s) -> hier_part_gen_of clear_name_gen (b, s) \/ b = false /\ stuck (hier_part_p std_v6_parse) (bs "?#") s.
Proof.
  intros b s ([|] & _ & H); [|left; exists false; split; [exact I|exact H]].
  destruct H as (q & (a & Ha & p & Hp & ->) & E). inv E. destruct (authority_cases Ha) as [K|K].
  - left. exists true. split; [exact I|]. eexists. split; [|reflexivity]. exists a. split; [exact K|]. exists p. auto.
  - right. split; [reflexivity|]. destruct K as (v & t & x & r & -> & Hx & A). exists (Some (mk_hier (Some v) (AbemptyPath []))), (bs "//" ++ t), x, (r ++ p).
    split; [now rewrite <- !app_assoc|]. split; [exact Hx|]. intros rest Hr. replace ((x :: r ++ p) ++ rest) with ((x :: r) ++ p ++ rest) by (cbn; now rewrite <- app_assoc).
    unfold hier_part_p. apply a_opt, a_or1, a_attempt. eapply a_map_eq with (v := (v, AbemptyPath [])); [|reflexivity]. rewrite <- (app_nil_r (bs "//" ++ t)).
    eapply a_and; [eapply a_skip_left; [apply a_seqN|]|].
    + cbn [app]. apply (A (p ++ rest)). apply g_abempty in Hp. destruct Hp as (l & F & -> & Hne). destruct F as [|y l (u & -> & _) _]; [congruence|]. now left.
    + apply a_abempty_none. apply reg_not; [exact Hx|reflexivity|discriminate].
Qed.
Theorem C117_hier_exact : forall b s, hier_part_gen (b, s) ->
  (passes (hier_part_p std_v6_parse) show_hier_opt s <-> hier_part_gen_of clear_name_gen (b, s)).
Proof.
  intros b s H. split.
  - intros P. destruct (hier_cases H) as [K|[_ K]]; [exact K|]. exfalso. now apply (stuck_fails K P).
  - intros K. apply g_hier_text in K. destruct K as (h & G & Q & E). eapply passes_acc; [|exact E].
    eapply a_hier; [apply (a_v6_bracket std_v6_parse std_v6_complete)|exact G|exact Q|exact I].
Qed.

Lemma uri_gen_iff : forall reg s, uri_gen_of reg s <-> exists sc b h, scheme_gen sc /\ hier_part_gen_of reg (b, h) /\
  if b then s = sc ++ bs ":" ++ h
  else exists q f, query_gen q /\ fragment_gen f /\ s = sc ++ bs ":" ++ h ++ (bs "?" ++ q) ++ (bs "#" ++ f).
Proof.
  intros reg s. split.
  - intros (sc & Hs & [s2 b2] & H & K). cbv beta zeta in H. destruct H as ([s1 b1] & ([b h] & Hh & E) & H). cbn [fst snd] in E. inv E.
    exists sc, b, h. split; [exact Hs|]. split; [exact Hh|]. cbn [fst snd] in *. destruct b; cbn in H.
    + unfold g_pure in H. inversion H; subst; clear H. exact K.
    + destruct H as (q & Hq & E). inv E. destruct K as (f & Hf & ->). exists q, f. repeat split; auto. now rewrite <- !app_assoc.
  - intros (sc & b & h & Hs & Hh & H). exists sc. split; [exact Hs|]. cbv beta zeta. destruct b.
    + subst s. exists (sc ++ bs ":" ++ h, true). split; [|reflexivity]. exists (sc ++ bs ":" ++ h, true). split; [exists (true, h); auto|reflexivity].
    + destruct H as (q & f & Hq & Hf & ->). exists ((sc ++ bs ":" ++ h) ++ bs "?" ++ q, false). split.
      * exists (sc ++ bs ":" ++ h, false). split; [exists (false, h); auto|]. cbn [fst snd]. exists q. auto.
      * cbn [fst snd]. exists f. split; [exact Hf|]. now rewrite <- !app_assoc.
Qed.
Lemma show_hier_split : forall h, show_opt (fun h => show_opt (fun a => bs "//" ++ show_authority std_v6_show a) (hp_authority h)) h ++
  show_opt (fun h => show_path (hp_path h)) h = show_hier_opt h.
Proof. intros [h|]; reflexivity. Qed.
Lemma g_uri_text : forall s, uri_gen_of clear_name_gen s -> exists u, g_uri v6_text u s /\ plain_uri u /\ show_uri std_v6_show u = s.
Proof.
  intros s H. apply uri_gen_iff in H. destruct H as (sc & b & h & Hs & Hh & H). apply g_scheme_text in Hs. apply g_hier_text in Hh. destruct Hh as (v & G & Q & E).
  assert (S1 : g_opt g_scheme (Some sc) sc) by now constructor. destruct b.
  - subst s. exists (mk_uri (Some sc) v None None). split; [|split; [exact Q|]].
    + replace (sc ++ bs ":" ++ h) with (sc ++ bs ":" ++ h ++ [] ++ []) by now rewrite app_nil_r. constructor; [exact S1|exact G|constructor|constructor].
    + unfold show_uri. cbn [u_scheme u_hier u_query u_fragment show_opt]. rewrite !app_nil_r, show_hier_split. now rewrite E.
  - destruct H as (q & f & Hq & Hf & ->). apply g_query_text in Hq. destruct Hq as [ps Hq]. apply g_fragment_enc in Hf. destruct Hf as [Hf _].
    exists (mk_uri (Some sc) v (Some ps) (Some f)). split; [|split; [exact Q|]].
    + constructor; [exact S1|exact G|constructor; eauto|constructor]. exists f. split; [split; [reflexivity|exact Hf]|reflexivity].
    + unfold show_uri. cbn [u_scheme u_hier u_query u_fragment show_opt]. rewrite (app_assoc (show_opt _ v)), show_hier_split, E, (params_show Hq). reflexivity.
Qed.
Theorem C117_uri_exact : forall s, uri_gen s ->
  (passes (uri_p std_v6_parse) (show_uri std_v6_show) s <-> uri_gen_of clear_name_gen s).
Proof.
  intros s H. split.
  - intros P. apply uri_gen_iff in H. destruct H as (sc & b & h & Hs & Hh & H). destruct (hier_cases Hh) as [K|[-> K]].
    + apply uri_gen_iff. exists sc, b, h. auto.
    + exfalso. revert P. destruct H as (q & f & Hq & Hf & ->). destruct K as (v & t & x & r & -> & Hx & A).
      replace (sc ++ bs ":" ++ (t ++ x :: r) ++ (bs "?" ++ q) ++ bs "#" ++ f) with ((sc ++ bs ":" ++ t) ++ x :: r ++ (bs "?" ++ q) ++ bs "#" ++ f)
        by (rewrite <- !app_assoc; reflexivity).
      eapply fails_acc with (v := mk_uri (Some sc) v None None); [|discriminate]. unfold uri_p.
      eapply a_map_eq with (v := (((Some sc, v), None), None)); [|reflexivity].
      replace (sc ++ bs ":" ++ t) with ((((sc ++ bs ":") ++ t) ++ []) ++ []) by (now rewrite !app_nil_r, <- app_assoc).
      eapply a_and; [eapply a_and; [eapply a_and; [eapply a_skip_right; [|apply a_elm]|]|]|].
      * apply a_opt, a_scheme; [now apply g_scheme_text|reflexivity].
      * cbn [app]. apply (A ((bs "?" ++ q) ++ bs "#" ++ f)). now left.
      * eapply a_opt_none, r_skip_left1, r_elm. cbn. apply reg_not; [exact Hx|reflexivity|discriminate].
      * eapply a_opt_none, r_skip_left1, r_elm. cbn. apply reg_not; [exact Hx|reflexivity|discriminate].
  - intros K. apply g_uri_text in K. destruct K as (u & G & Q & E). eapply passes_acc; [|exact E].
    eapply a_uri; [apply (a_v6_bracket std_v6_parse std_v6_complete)|exact G|exact Q].
Qed.

(** ** The names on which the tests of hosts, authorities, hierarchies and URIs fail; texts of the generators *)
Ltac gin :=
  match goal with
  | |- frequency _ _ => unfold frequency; gin
  | |- Exists _ (_ :: _) => first [apply Exists_cons_hd; solve [gin] | apply Exists_cons_tl; gin]
  | |- choose _ _ _ => cbv; split; discriminate
  | |- digit_gen _ _ _ => cbv; split; discriminate
  | |- g_pure _ _ => reflexivity
  | |- one_bool _ => exact I
  | |- one_of_values _ _ => cbv; tauto
  | |- alpha_char_gen _ => first [exists true; split; [exact I|cbv; split; discriminate] | exists false; split; [exact I|cbv; split; discriminate]]
  | |- g_map _ into ?s => let c := eval cbv in (hd 0%N s) in exists c; split; [gin|reflexivity]
  | |- pct_encoded_gen ?s => let l := eval cbv in (tl s) in exists l; split; [gin|reflexivity]
  | |- list_of_n _ _ _ => split; [reflexivity|gin]
  | |- Forall ?P ?l => let l := eval cbv in l in change (Forall P l); repeat apply Forall_cons; [..|apply Forall_nil]; cbv beta; gin
  | |- unreserved_gen_of_char _ => unfold unreserved_gen_of_char; gin
  | |- sub_delims_gen_of_char _ => unfold sub_delims_gen_of_char; gin
  | |- sub_delims_without_gen_of_char _ => unfold sub_delims_without_gen_of_char; gin
  | |- gen_delims_gen_of_char _ => unfold gen_delims_gen_of_char; gin
  | |- reserved_gen_of_char _ => first [exists true; split; [exact I|solve [gin]] | exists false; split; [exact I|gin]]
  | |- hex_digit_gen_lower _ => unfold hex_digit_gen_lower; gin
  | |- pchar_gen 1 1 ?s => let c := eval cbv in (hd 0%N s) in exists 1%N; split; [gin|]; exists [[c]]; split; [gin|reflexivity]
  | |- repeat_gen_of_char _ _ ?s => let n := eval cbv in (N.of_nat (length s)) in exists n; split; gin
  end.
(** The pieces of a generated text. *)
Ltac pieces l0 := let l := eval cbv in l0 in let n := eval cbv in (N.of_nat (length l)) in exists n; split; [gin|exists l; split; [gin|reflexivity]].
Ltac singles s := let l := eval cbv in (map (fun c : N => [c]) s) in pieces l.

Lemma bad_name : reg_name_gen (bs "1.2.3.4a").
Proof. singles (bs "1.2.3.4a"). Qed.
Lemma bad_host : host_gen (bs "1.2.3.4a").
Proof. apply Exists_cons_tl, Exists_cons_tl, Exists_cons_hd. exact bad_name. Qed.
Lemma bad_authority : authority_gen (bs "1.2.3.4a").
Proof.
  exists None. split; [exists false; split; [exact I|reflexivity]|]. exists (bs "1.2.3.4a"). split; [|reflexivity].
  exists (bs "1.2.3.4a"). split; [exact bad_host|]. exists None. split; [exists false; split; [exact I|reflexivity]|reflexivity].
Qed.
Lemma one_slash : path_abempty_gen (bs "/").
Proof.
  exists 1%N. split; [gin|]. exists [bs "/"]. split; [|reflexivity]. split; [reflexivity|]. constructor; [|constructor].
  exists []. split; [|reflexivity]. exists 0%N. split; [cbv; split; discriminate|]. exists []. split; [split; [reflexivity|constructor]|reflexivity].
Qed.
Lemma bad_hier : hier_part_gen (false, bs "//1.2.3.4a/").
Proof.
  exists true. split; [exact I|]. exists (bs "//1.2.3.4a/"). split; [|reflexivity]. exists (bs "1.2.3.4a"). split; [exact bad_authority|].
  exists (bs "/"). split; [exact one_slash|reflexivity].
Qed.
Lemma some_scheme : scheme_gen (bs "ab").
Proof. exists (bs "b"). split; [gin|]. exists (chr "a"). split; [gin|reflexivity]. Qed.
Lemma some_part : forall s, s = bs "k" \/ s = bs "v" -> pchar_without_eq_amp_gen 1 10 s.
Proof. intros s [-> | ->]; [singles (bs "k")|singles (bs "v")]. Qed.
Lemma some_query : query_gen (bs "k=v&k=v&k=v&k=v&k=v&k=v").
Proof.
  exists [bs "k=v&k=v"; bs "k=v&k=v"; bs "k=v&k=v"]. split; [|reflexivity]. split; [reflexivity|].
  assert (K : g_flat_map (pchar_without_eq_amp_gen 1 10) (fun key => g_map (list_of_n 2 (pchar_without_eq_amp_gen 1 10))
    (fun vl => join (bs "&") (map (fun v => key ++ bs "=" ++ v) vl))) (bs "k=v&k=v")).
  { exists (bs "k"). split; [apply some_part; auto|]. exists [bs "v"; bs "v"]. split; [|reflexivity]. split; [reflexivity|].
    repeat constructor; apply some_part; auto. }
  repeat constructor; exact K.
Qed.
Lemma some_fragment : fragment_gen (bs "f/").
Proof. singles (bs "f/"). Qed.
Lemma uri_with : forall reg h, hier_part_gen_of reg (false, h) -> uri_gen_of reg (bs "ab:" ++ h ++ bs "?k=v&k=v&k=v&k=v&k=v&k=v#f/").
Proof.
  intros reg h H. apply uri_gen_iff. exists (bs "ab"), false, h. split; [exact some_scheme|]. split; [exact H|].
  exists (bs "k=v&k=v&k=v&k=v&k=v&k=v"), (bs "f/"). split; [exact some_query|]. split; [exact some_fragment|reflexivity].
Qed.
Lemma bad_uri : uri_gen (bs "ab://1.2.3.4a/?k=v&k=v&k=v&k=v&k=v&k=v#f/").
Proof. exact (uri_with bad_hier). Qed.

Lemma not_passes : forall A (p : parser N A) show s, (match parse (p_skip_right p (@p_end N)) s with Success _ _ => false | _ => true end) = true ->
  ~ passes p show s.
Proof. intros A p show s H (v & E & _). rewrite E in H. discriminate. Qed.
Theorem C117_host_refuted : exists s, host_gen s /\ ~ passes (host std_v6_parse) (show_host std_v6_show) s.
Proof. exists (bs "1.2.3.4a"). split; [exact bad_host|]. apply not_passes. vm_compute. reflexivity. Qed.
Theorem C117_authority_refuted : exists s, authority_gen s /\ ~ passes (authority_p std_v6_parse) (show_authority std_v6_show) s.
Proof. exists (bs "1.2.3.4a"). split; [exact bad_authority|]. apply not_passes. vm_compute. reflexivity. Qed.
Theorem C117_hier_refuted : exists b s, hier_part_gen (b, s) /\ ~ passes (hier_part_p std_v6_parse) show_hier_opt s.
Proof. exists false, (bs "//1.2.3.4a/"). split; [exact bad_hier|]. apply not_passes. vm_compute. reflexivity. Qed.
Theorem C117_uri_refuted : exists s, uri_gen s /\ ~ passes (uri_p std_v6_parse) (show_uri std_v6_show) s.
Proof. exists (bs "ab://1.2.3.4a/?k=v&k=v&k=v&k=v&k=v&k=v#f/"). split; [exact bad_uri|]. apply not_passes. vm_compute. reflexivity. Qed.

(** Texts that meet the hypotheses. *)
Example C117_basic_case : pchar_gen 1 254 (bs "a%2f:") /\ pct_encoded_gen (bs "%2f") /\ unreserved_gen 254 (bs "aZ~") /\
  reserved_gen 254 (bs "?!#") /\ gen_delims_gen 254 (bs "[]") /\ sub_delims_gen 254 (bs "&=").
Proof.
  split; [pieces [bs "a"; bs "%2f"; bs ":"]|]. split; [gin|]. split; [unfold unreserved_gen; gin|]. split; [unfold reserved_gen; gin|].
  split; [unfold gen_delims_gen; gin|unfold sub_delims_gen; gin].
Qed.
Lemma some_octet : forall s n, s = show_dec n -> choose 1 255 n -> dec_octet_gen s.
Proof. intros s n -> H. exists n. auto. Qed.
Lemma some_ipv4 : ipv4_address_gen (bs "1.20.30.255").
Proof.
  exists [bs "1"; bs "20"; bs "30"; bs "255"]. split; [|reflexivity]. split; [reflexivity|].
  repeat constructor; [eapply some_octet with (n := 1%N)|eapply some_octet with (n := 20%N)|eapply some_octet with (n := 30%N)|eapply some_octet with (n := 255%N)];
    try reflexivity; gin.
Qed.
Example C117_parts_case : fragment_gen (bs "f/") /\ scheme_gen (bs "ab") /\ port_gen (bs "8080") /\ dec_octet_gen (bs "250") /\
  ipv4_address_gen (bs "1.20.30.255") /\ user_info_gen (bs "ab:c").
Proof.
  split; [exact some_fragment|]. split; [exact some_scheme|]. split; [exists 8080%N; split; [gin|reflexivity]|].
  split; [eapply some_octet with (n := 250%N); [reflexivity|gin]|]. split; [exact some_ipv4|].
  exists true. split; [exact I|]. exists (bs "ab"). split; [|exists (bs "c"); split; [|reflexivity]].
  - exists 2%N. split; [gin|]. exists [bs "a"; bs "b"]. split; [|reflexivity]. split; [reflexivity|].
    repeat apply Forall_cons; [..|apply Forall_nil]; apply Exists_cons_hd; unfold unreserved_gen; gin.
  - exists 1%N. split; [gin|]. exists [bs "c"]. split; [|reflexivity]. split; [reflexivity|].
    repeat apply Forall_cons; [..|apply Forall_nil]; apply Exists_cons_hd; unfold unreserved_gen; gin.
Qed.
Lemma some_nz : segment_nz_gen (bs "a@").
Proof. singles (bs "a@"). Qed.
Lemma some_absolute : path_absolute_gen (bs "/a@/").
Proof.
  exists (bs "/a@"). split.
  - exists 1%N. split; [gin|]. exists [bs "/a@"]. split; [|reflexivity]. split; [reflexivity|]. constructor; [|constructor].
    exists (bs "a@"). split; [exact some_nz|reflexivity].
  - exists (bs "/"). split; [exact one_slash|reflexivity].
Qed.
Example C117_paths_case : path_with_abempty_gen (bs "/a@/") /\ path_abempty_gen (bs "/") /\ path_absolute_gen (bs "/a@/") /\
  path_no_scheme_gen (bs "a@/") /\ path_rootless_gen (bs "a@/").
Proof.
  split; [apply Exists_cons_tl, Exists_cons_hd; exact some_absolute|]. split; [exact one_slash|]. split; [exact some_absolute|].
  split; exists (bs "a@"); (split; [|exists (bs "/"); split; [exact one_slash|reflexivity]]); [singles (bs "a@")|exact some_nz].
Qed.
Example C117_query_case : query_gen (bs "k=v&k=v&k=v&k=v&k=v&k=v").
Proof. exact some_query. Qed.
Lemma some_h16 : h16_gen (bs "a1").
Proof.
  exists 161%N. split; [|reflexivity]. exists (bs "0a1"). split; [|reflexivity]. exists 4%N. split; [gin|]. gin.
Qed.
Lemma some_ls32 : ls32_gen (bs "a1:a1") /\ ls32_gen (bs "1.20.30.255").
Proof.
  split; [|apply Exists_cons_hd; exact some_ipv4]. apply Exists_cons_tl, Exists_cons_hd. exists [bs "a1"; bs "a1"]. split; [|reflexivity].
  split; [reflexivity|]. repeat constructor; exact some_h16.
Qed.
Example C117_groups_case : h16_gen (bs "a1") /\ ls32_gen (bs "a1:a1") /\ ls32_gen (bs "1.20.30.255").
Proof. split; [exact some_h16|exact some_ls32]. Qed.
Example C117_addresses_case : ipv6_address_gen1 (bs "a1:a1:a1:a1:a1:a1:1.20.30.255") /\ ipv6_address_gen7 (bs "a1::a1:a1") /\
  ipv6_address_gen9 (bs "a1:a1:a1:a1:a1:a1::").
Proof.
  assert (L : forall n, Forall h16_gen (repeat (bs "a1") n)) by (induction n; constructor; [exact some_h16|assumption]).
  split; [|split].
  - exists (repeat (bs "a1") 6). split; [split; [reflexivity|apply L]|]. exists (bs "1.20.30.255"). split; [apply some_ls32|reflexivity].
  - exists (bs "a1"). split; [exists true; split; [exact I|apply Exists_cons_hd; exact some_h16]|]. exists (bs "a1:a1"). split; [apply some_ls32|reflexivity].
  - exists (bs "a1:a1:a1:a1:a1:a1"). split; [|reflexivity]. exists true. split; [exact I|]. apply Exists_cons_tl, Exists_cons_hd.
    exists (repeat (bs "a1") 6). split; [split; [reflexivity|apply L]|reflexivity].
Qed.
Lemma some_address : ipv6_address_gen (bs "a1::a1:a1").
Proof.
  exists (bs "a1::a1:a1"). split; [do 6 apply Exists_cons_tl; apply Exists_cons_hd; apply C117_addresses_case|].
  eexists. split; [vm_compute; reflexivity|vm_compute; reflexivity].
Qed.
Example C117_address_case : any_address_gen (bs "a1::a1:a1") /\ ipv6_address_gen (bs "a1::a1:a1").
Proof. split; [do 6 apply Exists_cons_tl; apply Exists_cons_hd; apply C117_addresses_case|exact some_address]. Qed.
Lemma some_name : reg_name_gen (bs "a%2fb").
Proof. pieces [bs "a"; bs "%2f"; bs "b"]. Qed.
Example C117_names_case : ip_v_future_gen (bs "v1.a:") /\ reg_name_gen (bs "a%2fb") /\ ip_literal_gen (bs "[a1::a1:a1]").
Proof.
  split; [|split; [exact some_name|]].
  - exists (bs "1"). split; [gin|]. exists (bs "a:"). split; [gin|reflexivity].
  - exists (bs "a1::a1:a1"). split; [apply Exists_cons_hd; exact some_address|reflexivity].
Qed.
Lemma clear_case : clear_name_gen (bs "a%2fb").
Proof. split; [exact some_name|]. left. intros (v & t & r & G & E). apply ipv4_chars in G. destruct G as [Hne G]. destruct t as [|x t]; [congruence|].
  inv E. inv G. match goal with K : digit _ \/ _ |- _ => destruct K as [K|K]; [|discriminate K]; unfold digit in K; cbn in K; lia end.
Qed.
Lemma clear_host : host_gen_of clear_name_gen (bs "a%2fb") /\ host_gen (bs "a%2fb").
Proof. split; apply Exists_cons_tl, Exists_cons_tl, Exists_cons_hd; [exact clear_case|exact some_name]. Qed.
Lemma clear_authority : authority_gen_of clear_name_gen (bs "a%2fb:80") /\ authority_gen (bs "a%2fb:80").
Proof.
  assert (P : to_option port_gen (Some (bs "80"))).
  { exists true. split; [exact I|]. exists (bs "80"). split; [|reflexivity]. exists 80%N. split; [gin|reflexivity]. }
  split; exists None; (split; [exists false; split; [exact I|reflexivity]|]); exists (bs "a%2fb:80"); (split; [|reflexivity]);
    exists (bs "a%2fb"); (split; [apply clear_host|]); exists (Some (bs "80")); (split; [exact P|reflexivity]).
Qed.
Lemma clear_hier : hier_part_gen_of clear_name_gen (false, bs "//a%2fb:80/") /\ hier_part_gen (false, bs "//a%2fb:80/").
Proof.
  split; exists true; (split; [exact I|]); exists (bs "//a%2fb:80/"); (split; [|reflexivity]); exists (bs "a%2fb:80");
    (split; [apply clear_authority|]); exists (bs "/"); (split; [exact one_slash|reflexivity]).
Qed.
Example C117_exact_case : host_gen (bs "a%2fb") /\ authority_gen (bs "a%2fb:80") /\ hier_part_gen (false, bs "//a%2fb:80/") /\
  uri_gen (bs "ab://a%2fb:80/?k=v&k=v&k=v&k=v&k=v&k=v#f/") /\ passes (uri_p std_v6_parse) (show_uri std_v6_show) (bs "ab://a%2fb:80/?k=v&k=v&k=v&k=v&k=v&k=v#f/").
Proof.
  split; [apply clear_host|]. split; [apply clear_authority|]. split; [apply clear_hier|].
  split; [exact (uri_with (proj2 clear_hier))|]. apply C117_uri_exact; [exact (uri_with (proj2 clear_hier))|exact (uri_with (proj1 clear_hier))].
Qed.

Print Assumptions C117_basic. Print Assumptions C117_parts. Print Assumptions C117_paths. Print Assumptions C117_query.
Print Assumptions C117_groups. Print Assumptions C117_addresses. Print Assumptions C117_address. Print Assumptions C117_names.
Print Assumptions C117_host_exact. Print Assumptions C117_authority_exact. Print Assumptions C117_hier_exact. Print Assumptions C117_uri_exact.
Print Assumptions C117_host_refuted. Print Assumptions C117_authority_refuted. Print Assumptions C117_hier_refuted. Print Assumptions C117_uri_refuted.
