(** Soundness of the URI parsers with respect to UriSpec.v, and of the printers on texts of the grammar. *)
From Verif Require Import Base Core Comb Closure RepFacts LitFacts Hoare Text Uri UriSpec.
Set Implicit Arguments.
Local Open Scope string_scope.
Local Open Scope nat_scope.
Local Open Scope list_scope.

(** The value is the consumed text. *)
Definition txt (P : bytes -> Prop) (v s : bytes) : Prop := v = s /\ P s.
Definition one (C : N -> Prop) (s : bytes) : Prop := exists x, s = [x] /\ C x.
Definition pct (s : bytes) : Prop := exists a b, s = [chr "%"; a; b] /\ hexdig a /\ hexdig b.
Definition piece (C : N -> Prop) (s : bytes) : Prop := one C s \/ pct s.
Definition elt (C : N -> Prop) (v : N) (s : bytes) : Prop := s = [v] /\ C v.

Lemma piece_ne : forall C s, piece C s -> s <> [].
Proof. intros C s [(x & -> & _)|(a & b & -> & _)]; discriminate. Qed.
Lemma elt_ne : forall C v s, elt C v s -> s <> [].
Proof. intros C v s [-> _]. discriminate. Qed.
Lemma one_w : forall (C D : N -> Prop) s, (forall x, C x -> D x) -> one C s -> one D s.
Proof. intros C D s H (x & -> & Hx). exists x. auto. Qed.
Lemma piece_w : forall (C D : N -> Prop) s, (forall x, C x -> D x) -> piece C s -> piece D s.
Proof. intros C D s H [K|K]; [left; eapply one_w; eauto|right; exact K]. Qed.
Lemma enc_app : forall C s t, enc C s -> enc C t -> enc C (s ++ t).
Proof. intros C s t H K. induction H; cbn; [exact K|apply enc_chr; auto|apply enc_pct; auto]. Qed.
Lemma piece_enc : forall C s, piece C s -> enc C s.
Proof. intros C s [(x & -> & H)|(a & b & -> & H & K)]; [apply enc_chr|apply enc_pct]; auto; constructor. Qed.
Lemma items_enc : forall C vs s, Items (txt (piece C)) vs s -> enc C s.
Proof. intros C vs s H. induction H as [|v s vs t [_ H] _ IH]; [constructor|]. apply enc_app; [apply piece_enc, H|exact IH]. Qed.
Lemma items_forall_elt : forall C vs s, Items (elt C) vs s -> s = vs /\ Forall C vs.
Proof. intros C vs s H. induction H as [|v s vs t [-> H] _ [-> IH]]; [split; [reflexivity|constructor]|]. split; [reflexivity|constructor; auto]. Qed.
Lemma items_one : forall C vs s, Items (txt (one C)) vs s -> Forall C s.
Proof. intros C vs s H. induction H as [|v s vs t [_ (x & -> & H)] _ IH]; [constructor|]. constructor; auto. Qed.
Lemma items_ne : forall (Q : bytes -> bytes -> Prop) vs s, Items Q vs s -> (forall v t, Q v t -> t <> []) -> vs <> [] -> s <> [].
Proof.
  intros Q vs s H HQ Hne. destruct H as [|v s vs t H1 H2]; [congruence|]. apply HQ in H1. destruct s; [congruence|discriminate].
Qed.

(** ** Characters *)
Lemma h_alpha : hoare p_elm_alpha_ref (elt alpha).
Proof.
  apply h_elm_pred_ref. intros x Hx. split; [reflexivity|]. unfold is_ascii_alpha, in_range in Hx.
  repeat (rewrite ?orb_true_iff, ?andb_true_iff, ?N.leb_le in Hx). unfold alpha. lia.
Qed.
Lemma h_digit_ref : hoare p_elm_digit_ref (elt digit).
Proof. apply h_elm_pred_ref. intros x Hx. split; [reflexivity|]. now apply is_digit_iff. Qed.
Lemma h_digit_e : hoare p_elm_digit (elt digit).
Proof. apply h_digit. intros x Hx. split; [reflexivity|exact Hx]. Qed.
Lemma h_hex_ref : hoare p_elm_hex_digit_ref (elt hexdig).
Proof. apply h_elm_pred_ref. intros x Hx. split; [reflexivity|]. now apply hexdig_iff. Qed.
Lemma h_hex : hoare p_elm_hex_digit (elt hexdig).
Proof. apply h_elm_pred. intros x Hx. split; [reflexivity|]. now apply hexdig_iff. Qed.
Lemma h_among : forall l, hoare (elm_ref_of l) (elt (among l)).
Proof. intros l. apply h_elm_ref_of. intros x Hx. split; [reflexivity|]. now apply set_contains_in. Qed.
Lemma h_elm_e : forall c, hoare (p_elm c) (elt (eq c)).
Proof. intros c. apply h_elm. split; reflexivity. Qed.
Lemma h_elm_ref_e : forall c, hoare (p_elm_ref c) (elt (eq c)).
Proof. intros c. apply h_elm_ref. split; reflexivity. Qed.
Lemma elt_w : forall (C D : N -> Prop) p, hoare p (elt C) -> (forall x, C x -> D x) -> hoare p (elt D).
Proof. intros C D p H K. eapply h_weaken; [exact H|]. intros v s [-> Hv]. split; auto. Qed.
Lemma h_collect_elt : forall C (p : parser N N), hoare p (elt C) -> hoare (p_collect p) (txt (one C)).
Proof. intros C p H. eapply h_collect; [exact H|]. intros v s [-> Hv]. split; [reflexivity|]. exists v. auto. Qed.
Lemma txt_w : forall (P Q : bytes -> Prop) p, hoare p (txt P) -> (forall s, P s -> Q s) -> hoare p (txt Q).
Proof. intros P Q p H K. eapply h_weaken; [exact H|]. intros v s [-> Hv]. split; auto. Qed.
Lemma h_collect_txt : forall P (p : parser N bytes), hoare p (txt P) -> hoare (p_collect p) (txt P).
Proof. intros P p H. eapply h_collect; [exact H|]. intros v s [-> Hv]. split; auto. Qed.
Lemma h_to_string : forall P p, hoare p (txt P) -> hoare (to_string p) (txt P).
Proof.
  intros P p H. unfold to_string. eapply h_map_res; [eapply h_map; [exact H|intros v s K; exact K]|].
  intros v s b [-> Hv] E. unfold from_utf8 in E. destruct (utf8_valid s); inv E. split; auto.
Qed.

Lemma h_unreserved : hoare unreserved (txt (one c_unreserved)).
Proof.
  unfold unreserved. apply h_name, h_collect_elt. repeat apply h_or.
  - eapply elt_w; [apply h_alpha|]. unfold c_unreserved. auto.
  - eapply elt_w; [apply h_digit_ref|]. unfold c_unreserved. auto.
  - eapply elt_w; [apply h_among|]. unfold c_unreserved. auto.
Qed.
(** The pair of two texts. *)
Definition both {A B} (P : A -> bytes -> Prop) (Q : B -> bytes -> Prop) (ab : A * B) (s : bytes) : Prop :=
  exists s1 s2, s = s1 ++ s2 /\ P (fst ab) s1 /\ Q (snd ab) s2.
Lemma h_and_both : forall A B (p : parser N A) (q : parser N B) P Q, hoare p P -> hoare q Q -> hoare (p_and p q) (both P Q).
Proof. intros A B p q P Q H1 H2. eapply h_and; [exact H1|exact H2|]. intros a b s t Ha Hb. exists s, t. auto. Qed.
Lemma h_left_both : forall A B (p : parser N A) (q : parser N B) P Q, hoare p P -> hoare q Q ->
  hoare (p_skip_right p q) (fun a s => exists b, both P Q (a, b) s).
Proof. intros A B p q P Q H1 H2. eapply h_skip_right; [exact H1|exact H2|]. intros a b s t Ha Hb. exists b, s, t. auto. Qed.
Lemma h_right_both : forall A B (p : parser N A) (q : parser N B) P Q, hoare p P -> hoare q Q ->
  hoare (p_skip_left p q) (fun b s => exists a, both P Q (a, b) s).
Proof. intros A B p q P Q H1 H2. eapply h_skip_left; [exact H1|exact H2|]. intros a b s t Ha Hb. exists a, s, t. auto. Qed.
Lemma h_opt_g : forall A (p : parser N A) P, hoare p P -> hoare (p_opt p) (g_opt P).
Proof. intros A p P H. eapply h_opt; [exact H| |constructor]. intros v s Hv. now constructor. Qed.
(** Take apart the nested pairs of a postcondition. *)
Ltac parts :=
  repeat match goal with
  | p : (_ * _)%type |- _ => destruct p
  | H : chr _ = _ |- _ => progress subst
  | H : both _ _ _ _ |- _ => destruct H as (? & ? & -> & ? & ?)
  | H : elt _ _ _ |- _ => destruct H as [-> ?]
  | H : txt _ _ _ |- _ => destruct H as [-> ?]
  | H : exists _, both _ _ _ _ |- _ => destruct H as [? ?]
  | _ => progress cbn [fst snd] in *
  end.

Lemma h_pct : hoare pct_encoded (txt pct).
Proof.
  unfold pct_encoded. apply h_name. eapply h_collect with (Q := fun _ s => pct s); [|intros; split; auto].
  eapply h_weaken; [apply h_and_both; [apply h_and_both; [apply h_elm_ref_e|apply h_hex_ref]|apply h_hex_ref]|].
  intros v s H. parts. eexists _, _. split; [reflexivity|]. now split.
Qed.
Lemma h_sub : hoare sub_delims (txt (one c_sub_delims)).
Proof. unfold sub_delims. apply h_collect_elt, h_name, h_among. Qed.
Lemma h_sub' : hoare sub_delims_without_eq_ampersand (txt (one (among (bs "!$'()*+,;")))).
Proof. unfold sub_delims_without_eq_ampersand. apply h_collect_elt, h_name, h_among. Qed.
Lemma one_piece : forall (C D : N -> Prop) s, (forall x, C x -> D x) -> one C s -> piece D s.
Proof. intros C D s H K. left. eapply one_w; eauto. Qed.
Lemma h_pchar : hoare pchar (txt (piece c_pchar)).
Proof.
  unfold pchar. apply h_name, h_collect_txt. repeat apply h_or.
  - eapply txt_w; [apply h_unreserved|]. intros s. apply one_piece. unfold c_pchar, c_reg. auto.
  - eapply txt_w; [apply h_pct|]. intros s H. now right.
  - eapply txt_w; [apply h_sub|]. intros s. apply one_piece. unfold c_pchar, c_reg. auto.
  - eapply txt_w; [apply h_collect_elt, h_among|]. intros s. apply one_piece. unfold c_pchar. auto.
Qed.
Lemma h_pchar_q : hoare pchar_without_eq_amp (txt (piece c_query)).
Proof.
  unfold pchar_without_eq_amp. apply h_name, h_collect_txt. repeat apply h_or.
  - eapply txt_w; [apply h_unreserved|]. intros s. apply one_piece. unfold c_query. auto.
  - eapply txt_w; [apply h_pct|]. intros s H. now right.
  - eapply txt_w; [apply h_sub'|]. intros s. apply one_piece. unfold c_query. auto.
  - eapply txt_w; [apply h_collect_elt, h_among|]. intros s. apply one_piece. unfold c_query. auto.
Qed.
Lemma h_reg_piece : hoare (p_or (p_or (p_attempt unreserved) (p_attempt pct_encoded)) sub_delims) (txt (piece c_reg)).
Proof.
  repeat apply h_or.
  - apply h_attempt. eapply txt_w; [apply h_unreserved|]. intros s. apply one_piece. unfold c_reg. auto.
  - apply h_attempt. eapply txt_w; [apply h_pct|]. intros s H. now right.
  - eapply txt_w; [apply h_sub|]. intros s. apply one_piece. unfold c_reg. auto.
Qed.
Lemma txt_piece_ne : forall C v s, txt (piece C) v s -> s <> [].
Proof. intros C v s [-> H]. eapply piece_ne. exact H. Qed.
Lemma h_enc0 : forall C p, hoare p (txt (piece C)) -> hoare (p_collect (p_many0 p)) (txt (enc C)).
Proof.
  intros C p H. eapply h_collect with (Q := fun _ s => enc C s); [|intros; split; auto].
  eapply h_many0; [exact H|apply txt_piece_ne|]. intros vs s Hi. eapply items_enc, Hi.
Qed.
Lemma h_enc1 : forall C p, hoare p (txt (piece C)) -> hoare (p_collect (p_many1 p)) (txt (fun s => enc C s /\ s <> [])).
Proof.
  intros C p H. eapply h_collect with (Q := fun _ s => enc C s /\ s <> []); [|intros; split; auto].
  eapply h_many1; [exact H|apply txt_piece_ne|]. intros vs s Hi Hne. split; [eapply items_enc, Hi|].
  eapply items_ne; [exact Hi|apply txt_piece_ne|exact Hne].
Qed.

(** ** Scheme, user info, port *)
Lemma h_scheme : hoare scheme g_scheme.
Proof.
  unfold scheme. eapply h_map with (Q := txt (fun s => exists x t, s = x :: t /\ alpha x /\ Forall (fun c => alpha c \/ digit c \/ among (bs "+-.") c) t)).
  2:{ intros v s [-> H]. split; [reflexivity|exact H]. }
  apply h_to_string. eapply h_collect with (Q := fun _ s => _); [|intros v s H; split; [reflexivity|exact H]].
  eapply h_weaken.
  - apply h_and_both; [apply h_alpha|]. apply h_many0 with (Q := elt (fun c => alpha c \/ digit c \/ among (bs "+-.") c)) (R := fun _ s => Forall (fun c => alpha c \/ digit c \/ among (bs "+-.") c) s).
    + repeat apply h_or; (eapply elt_w; [first [apply h_alpha|apply h_digit_ref|apply h_among]|auto]).
    + apply elt_ne.
    + intros vs s H. apply items_forall_elt in H. now destruct H as [-> H].
  - intros v s H. parts. eexists _, _. split; [reflexivity|]. auto.
Qed.
Lemma h_user : hoare user_info_p g_user.
Proof.
  unfold user_info_p. apply h_name. eapply h_map.
  - apply h_and_both; [apply h_to_string, h_enc0, h_reg_piece|]. apply h_opt_g. apply h_right_both; [apply h_elm_e|].
    apply h_to_string, h_enc1, h_reg_piece.
  - intros v s H. parts. match goal with H : g_opt _ _ _ |- _ => destruct H as [|p t (c & K)] end.
    + rewrite app_nil_r. now apply gu_name.
    + parts. destruct H0. now apply gu_pass.
Qed.
Lemma h_port : hoare port g_port.
Proof.
  unfold port. apply h_name. eapply h_map_res with (Q := txt (Forall digit)).
  - eapply h_map_res with (Q := txt (Forall digit)).
    + eapply h_many0; [apply h_digit_e|apply elt_ne|]. intros vs s H. apply items_forall_elt in H. destruct H as [-> H]. now split.
    + intros v s b [-> H] E. unfold from_utf8 in E. destruct (utf8_valid s); inv E. now split.
  - intros v s b [-> H] E. apply parse_uint_inv in E; [|exact H]. destruct E as (E1 & -> & E2). now repeat split.
Qed.

(** ** IPv4 *)
Lemma h_octet : hoare dec_octet octet.
Proof.
  unfold dec_octet. apply h_name. eapply h_map_res with (Q := txt canonical).
  - apply h_to_string. apply h_collect_txt.
    repeat apply h_or; try apply h_attempt;
      (eapply h_collect with (Q := fun _ s => canonical s); [|intros; split; auto]);
      (eapply h_weaken;
       [repeat apply h_and_both; first [apply h_elm_e|apply h_digit_e|apply h_elm_in with (R := elt digit)|apply h_digit_1_9 with (R := elt (fun x => digit x /\ x <> 48%N))]|]);
      try (intros x Hx; split; [reflexivity|]; cbn in Hx; unfold digit; lia);
      intros v s H; parts; subst; unfold canonical; cbn [app];
      (split; [repeat constructor; unfold digit in *; cbn; try tauto; lia|split; [discriminate|]]);
      first [exact I | cbn; lia | tauto | idtac].
  - intros v s b [-> H] E. apply parse_uint_inv in E; [|apply H]. destruct E as (E1 & -> & E2). now repeat split; try apply H.
Qed.
Lemma h_ipv4 : hoare ip_v4_address g_ipv4.
Proof.
  unfold ip_v4_address. apply h_name. eapply h_weaken.
  - repeat first [apply h_and_both|apply h_left_both]; first [apply h_octet|apply h_elm_e].
  - intros v s H. parts. subst. rewrite <- !app_assoc. now constructor.
Qed.

(** ** IPv6 *)
Lemma h_h16 : hoare h16 group.
Proof.
  unfold h16. apply h_name. eapply h_map_res with (Q := txt (fun s => Forall hexdig s /\ 1 <= length s <= 4)).
  - apply h_to_string. eapply h_collect with (Q := fun _ s => _); [|intros v s H; split; [reflexivity|exact H]].
    eapply h_repeat_max; [apply h_hex|apply elt_ne|lia|]. intros vs s H L. apply items_forall_elt in H. destruct H as [-> H]. auto.
  - intros v s b [-> [H L]] E. repeat split; try assumption; try lia. unfold parse_hex in E. destruct s as [|x s]; [cbn in L; lia|].
    destruct (forallb _ _); [|discriminate]. destruct (_ <=? _)%N; inv E. reflexivity.
Qed.
Lemma group_ne : forall v s, group v s -> s <> [].
Proof. intros v s (_ & L & _) ->. cbn in L. lia. Qed.
Lemma h_ls32 : hoare ls32 (fun x s => last32 (ls32_groups x) s).
Proof.
  unfold ls32. apply h_or.
  - apply h_attempt. eapply h_map; [apply h_and_both; [apply h_left_both; [apply h_h16|apply h_elm_e]|apply h_h16]|].
    intros v s H. parts. rewrite <- app_assoc. now apply l32_groups.
  - eapply h_map; [apply h_ipv4|]. intros [[[a b] c] d] s H. now apply l32_ipv4.
Qed.
Lemma last32_length : forall us s, last32 us s -> length us = 2.
Proof. intros us s H. now destruct H. Qed.
Lemma items_groups : forall vs s, Items (fun v s => exists x : N, both group (elt (eq (chr ":"))) (v, x) s) vs s -> groups_colon vs s.
Proof. intros vs s H. induction H as [|v s vs t H _ IH]; [constructor|]. parts. rewrite <- app_assoc. now constructor. Qed.
Lemma h_groups : forall n, 1 <= n -> hoare (p_count (p_skip_right h16 (p_elm (chr ":"))) n) (fun vs s => groups_colon vs s /\ length vs = n).
Proof.
  intros n Hn. change (hoare (p_repeat (p_skip_right h16 (p_elm (chr ":"))) (rg_in n n)) (fun vs s => groups_colon vs s /\ length vs = n)).
  eapply h_repeat_max; [apply h_left_both; [apply h_h16|apply h_elm_e]| |exact Hn|].
  - intros v s H. parts. match goal with H : group _ _ |- _ => apply group_ne in H end.
    match goal with |- ?a ++ _ <> _ => destruct a; [congruence|discriminate] end.
  - intros vs s H L. split; [apply items_groups, H|lia].
Qed.
Lemma index_n_all : forall v n, length v = n -> index_n v n = Some v.
Proof. intros v n <-. unfold index_n. now rewrite Nat.leb_refl, firstn_all. Qed.

Section Oracle.
Variable v6_parse : bytes -> ipv6 + unit.
Variable v6_show : ipv6 -> bytes.
(** The value of an address is the one its text denotes, directly or according to the standard library. *)
Definition v6_ok (a : ipv6) (s : bytes) : Prop := ipv6_text a s \/ v6_parse s = inl a.

Lemma h_v6_1 : hoare ip_v6_address1 v6_ok.
Proof.
  unfold ip_v6_address1. eapply h_map_panic; [apply h_and_both; [apply h_groups; lia|apply h_ls32]|].
  intros [vs b] s H. parts. destruct H as [H L]. rewrite index_n_all by exact L. eexists. split; [reflexivity|].
  left. apply t6_full; [now apply rp_last|]. rewrite app_length, L. now rewrite (last32_length H0).
Qed.
Lemma h_v6_2 : hoare ip_v6_address2 v6_ok.
Proof.
  unfold ip_v6_address2. eapply h_map_panic.
  { apply h_and_both; [apply h_right_both; [apply h_seqN with (R := fun _ s => s = bs "::"); reflexivity|apply h_groups; lia]|apply h_ls32]. }
  intros [vs b] s H. parts. destruct H1 as [H1 L]. rewrite index_n_all by exact L. eexists. split; [reflexivity|].
  left. subst. rewrite <- app_assoc.
  assert (K : length (vs ++ ls32_groups b) = 7) by (rewrite app_length, L, (last32_length H0); reflexivity).
  match goal with H : groups_colon vs ?t, H' : last32 _ ?u |- _ => pose proof (@t6_short [] [] (vs ++ ls32_groups b) (t ++ u)) as T end.
  cbn [List.length] in T. rewrite K in T. apply T; [constructor|now apply rp_last|lia].
Qed.
Lemma h_v6_3 : hoare ip_v6_address3 v6_ok.
Proof.
  unfold ip_v6_address3. eapply h_map_panic.
  { apply h_and_both; [|apply h_ls32]. apply h_and_both; [|apply h_groups; lia].
    apply h_left_both; [apply h_opt_g, h_h16|apply h_seqN with (R := fun _ s => s = bs "::"); reflexivity]. }
  intros [[h vs] b] s H. parts. destruct H1 as [H1 L]. rewrite index_n_all by exact L. eexists. split; [reflexivity|].
  left. subst. 
  assert (K : length (vs ++ ls32_groups b) = 6) by (rewrite app_length, L, (last32_length H0); reflexivity).
  match goal with H : g_opt _ _ _ |- _ => destruct H as [|g6 t Hx] end.
  - rewrite <- !app_assoc.
    match goal with H : groups_colon vs ?t, H' : last32 _ ?u |- _ => pose proof (@t6_short [] [] (vs ++ ls32_groups b) (t ++ u)) as T end.
    cbn [List.length] in T. rewrite K in T. apply T; [constructor|now apply rp_last|lia].
  - rewrite <- !app_assoc.
    match goal with H : groups_colon vs ?a, H' : last32 _ ?u |- _ => pose proof (@t6_short [g6] t (vs ++ ls32_groups b) (a ++ u)) as T end.
    cbn [List.length] in T. rewrite K in T. apply T; [|now apply rp_last|lia].
    exact (lp_cons gc_nil Hx).
Qed.
Lemma h_to_v6 : forall p, hoare p (txt (fun _ => True)) -> hoare (to_ipv6 v6_parse p) v6_ok.
Proof.
  intros p H. unfold to_ipv6. eapply h_map_res; [apply h_to_string, H|]. intros v s b [-> _] E. now right.
Qed.
Lemma h_p1 : forall n, 1 <= n -> hoare (ip_v6_address_p1 n) (fun _ _ => True).
Proof.
  intros n Hn. unfold ip_v6_address_p1. eapply h_collect; [|intros; exact I]. apply h_opt_g with (P := fun _ _ => True). eapply h_map; [|intros v s H; exact I].
  apply h_and_both; [apply h_h16|]. eapply h_repeat_max with (R := fun _ _ => True); [apply h_right_both; [apply h_elm_e|apply h_h16]| |exact Hn|auto].
  intros v s H. parts. discriminate.
Qed.
Lemma h_colons : hoare (p_seqN (bs "::")) (fun _ _ => True).
Proof. now apply h_seqN. Qed.
Lemma h_collect_any : forall A (p : parser N A) Q, hoare p Q -> hoare (p_collect p) (txt (fun _ => True)).
Proof. intros A p Q H. eapply h_collect; [exact H|]. intros. now split. Qed.
Lemma h_p2 : forall n m, 1 <= n -> 1 <= m -> hoare (ip_v6_address_p2 n m) (txt (fun _ => True)).
Proof.
  intros n m Hn Hm. unfold ip_v6_address_p2. eapply h_collect_any.
  apply h_and_both; [apply h_and_both; [now apply h_p1|apply h_colons]|].
  eapply h_collect_any. apply h_and_both with (P := fun _ _ => True); [|apply h_ls32].
  change (hoare (p_repeat (p_and h16 (p_elm (chr ":"))) (rg_in m m)) (fun _ _ => True)).
  eapply h_repeat_max; [apply h_and_both; [apply h_h16|apply h_elm_e]| |exact Hm|auto].
  intros v s H. parts. match goal with H : group _ _ |- _ => apply group_ne in H end.
  match goal with |- ?a ++ _ <> _ => destruct a; [congruence|discriminate] end.
Qed.
Lemma h_v6 : hoare (ip_v6_address v6_parse) v6_ok.
Proof.
  unfold ip_v6_address. apply h_name.
  repeat apply h_or; try apply h_attempt; [apply h_v6_1|apply h_v6_2|apply h_v6_3|..]; apply h_to_v6; try (apply h_p2; lia);
    eapply h_collect_any; repeat apply h_and_both; first [apply h_p1; lia|apply h_colons|apply h_ls32|apply h_h16].
Qed.

(** ** Host and authority *)
Variable V6 : ipv6 -> bytes -> Prop.
Hypothesis HV6 : hoare (ip_v6_address v6_parse) V6.

Lemma h_future : hoare ip_v_future (txt (fun u => exists h s, u = bs "v" ++ h ++ bs "." ++ s /\ Forall hexdig h /\ h <> [] /\ Forall (fun c => c_reg c \/ c = chr ":") s /\ s <> [])).
Proof.
  unfold ip_v_future. apply h_name, h_to_string.
  eapply h_collect with (Q := fun _ s => _); [|intros v s H; split; [reflexivity|exact H]].
  eapply h_weaken.
  - apply h_and_both; [apply h_and_both; [apply h_and_both; [apply h_elm_ref_e|]|apply h_elm_e]|].
    + apply h_many1 with (R := fun _ s => Forall hexdig s /\ s <> []) (Q := elt hexdig); [apply h_hex|apply elt_ne|].
      intros vs s H Hne. apply items_forall_elt in H. destruct H as [-> H]. auto.
    + apply h_many1 with (R := fun _ s => Forall (fun c => c_reg c \/ c = chr ":") s /\ s <> []) (Q := txt (one (fun c => c_reg c \/ c = chr ":"))).
      * repeat apply h_or.
        -- eapply txt_w; [apply h_unreserved|]. intros s. apply one_w. unfold c_reg. auto.
        -- eapply txt_w; [apply h_sub|]. intros s. apply one_w. unfold c_reg. auto.
        -- eapply txt_w; [apply h_collect_elt, h_elm_ref_e|]. intros s. apply one_w. auto.
      * intros v s [-> (x & -> & _)]. discriminate.
      * intros vs s H Hne. split; [eapply items_one, H|]. eapply items_ne; [exact H| |exact Hne].
        intros v t [-> (x & -> & _)]. discriminate.
  - intros v s H. parts. repeat match goal with H : _ /\ _ |- _ => destruct H end. 
    match goal with H : Forall hexdig ?a, H' : Forall _ ?b |- _ => lazymatch b with a => fail | _ => exists a, b end end.
    split; [rewrite <- !app_assoc; reflexivity|]. auto.
Qed.
Lemma h_host : hoare (host v6_parse) (g_host V6).
Proof.
  unfold host. apply h_name. repeat apply h_or; try apply h_attempt.
  - eapply h_map with (Q := fun l s => g_host V6 (IpLiteral l) s); [|auto].
    unfold ip_literal_p. apply h_name. eapply h_weaken.
    + apply h_left_both; [apply h_right_both; [apply h_elm_ref_e|]|apply h_elm_ref_e].
      apply h_or; [apply h_attempt|]; (eapply h_map with (R := fun l s => g_host V6 (IpLiteral l) (bs "[" ++ s ++ bs "]")); [first [apply HV6|apply h_future]|]).
      * intros a s H. now constructor.
      * intros a s [-> (h & t & -> & H1 & H2 & H3 & H4)]. now constructor.
    + intros v s H. parts. rewrite <- app_assoc. assumption.
  - eapply h_map; [apply h_ipv4|]. intros. now constructor.
  - unfold reg_name. apply h_name. eapply h_map; [apply h_to_string, h_enc1, h_reg_piece|]. intros v s [-> [H K]]. now constructor.
Qed.
Lemma h_authority : hoare (authority_p v6_parse) (g_authority V6).
Proof.
  unfold authority_p. eapply h_map.
  - apply h_and_both; [apply h_and_both; [apply h_opt_g with (P := fun u s => exists t, g_user u t /\ s = t ++ bs "@")|apply h_host]|
      apply h_opt_g with (P := fun n s => exists t, g_port n t /\ s = bs ":" ++ t)].
    + eapply h_weaken; [apply h_left_both; [apply h_user|apply h_elm_ref_e]|].
      intros v s H. parts. eexists. split; [eassumption|reflexivity].
    + eapply h_weaken; [apply h_right_both; [apply h_elm_ref_e|apply h_port]|].
      intros v s H. parts. eexists. split; [eassumption|reflexivity].
  - intros [[u h] p] s H. parts. rewrite <- app_assoc. now constructor.
Qed.

(** ** Paths *)
Lemma enc_ascii : forall (C : N -> Prop) s, (forall x, C x -> x < 128)%N -> enc C s -> ascii s.
Proof.
  intros C s HC H. induction H as [|x s Hx _ IH|a b s Ha Hb _ IH]; unfold ascii; repeat constructor; auto; unfold hexdig in *; cbn; lia.
Qed.
Lemma among_small : forall l x, forallb (fun y => y <? 128)%N l = true -> among l x -> (x < 128)%N.
Proof. intros l x H K. rewrite forallb_forall in H. apply N.ltb_lt, H, K. Qed.
Lemma pchar_small : forall x, c_pchar x -> (x < 128)%N.
Proof.
  intros x [[[H|[H|H]]|H]|H]; try (unfold alpha, digit in *; lia); (eapply among_small; [|exact H]); reflexivity.
Qed.
Lemma h_segment : hoare segment (txt (enc c_pchar)).
Proof. apply h_name, h_enc0, h_pchar. Qed.
Lemma h_slash : hoare slash_segment (txt g_seg).
Proof.
  unfold slash_segment. eapply h_collect with (Q := fun _ s => g_seg s); [|intros; now split].
  eapply h_weaken; [apply h_and_both; [apply h_elm_e|apply h_segment]|]. intros v s H. parts.
  eexists. split; [reflexivity|assumption].
Qed.
Lemma g_seg_ne : forall s, g_seg s -> s <> [].
Proof. intros s (t & -> & _). discriminate. Qed.
Lemma g_seg_ascii : forall s, g_seg s -> ascii s.
Proof. intros s (t & -> & H). constructor; [reflexivity|]. eapply enc_ascii; [apply pchar_small|exact H]. Qed.
Lemma items_txt : forall P vs s, Items (txt P) vs s -> s = List.concat vs /\ Forall P vs.
Proof.
  intros P vs s H. induction H as [|v s vs t [-> H] _ [-> IH]]; [split; [reflexivity|constructor]|].
  split; [reflexivity|constructor; auto].
Qed.
Lemma h_abempty : forall b, hoare (path_abempty b) (fun p s => exists l, p = AbemptyPath l /\ s = List.concat l /\ Forall g_seg l /\ (b = true -> s <> [])).
Proof.
  intros b. unfold path_abempty. apply h_name. eapply h_map.
  - eapply h_repeat_nosep with (R := fun l s => s = List.concat l /\ Forall g_seg l /\ (b = true -> s <> [])); [apply h_to_string, h_slash| |].
    + intros v s [-> H]. now apply g_seg_ne.
    + intros vs s H L. apply items_txt in H. destruct H as [-> H]. split; [reflexivity|]. split; [exact H|].
      intros ->. cbn in L. inv H; [cbn in L; lia|]. match goal with H : g_seg _ |- _ => apply g_seg_ne in H end.
      cbn. destruct x; [congruence|discriminate].
  - intros v s (H1 & H2 & H3). eauto.
Qed.
Lemma strings_of_ascii : forall l, Forall ascii l -> strings_of l = Some l.
Proof. intros l H. induction H as [|x l H _ IH]; [reflexivity|]. cbn. now rewrite (ascii_utf8 H), IH. Qed.
Lemma h_rootless : hoare path_rootless (fun p s => g_path p s /\ s <> []).
Proof.
  unfold path_rootless. apply h_name. eapply h_map with (Q := fun l s => g_path (RootlessPath l) s /\ s <> []); [|auto].
  eapply h_map_panic with (Q := fun l s => exists a b, l = a :: b /\ s = a ++ List.concat b /\ enc c_pchar a /\ a <> [] /\ Forall g_seg b).
  - eapply h_map.
    + apply h_and_both; [apply h_name, h_enc1, h_pchar|].
      eapply h_many0 with (R := fun l s => s = List.concat l /\ Forall g_seg l); [apply h_slash| |].
      * intros v s [-> H]. now apply g_seg_ne.
      * intros vs s H. now apply items_txt in H.
    + intros [a b] s H. parts. destruct H as [H1 H2]. destruct H0 as [-> H0]. eexists _, _. repeat split; assumption.
  - intros l s (a & b & -> & -> & H1 & H2 & H3). exists (a :: b). split.
    + apply strings_of_ascii. constructor; [eapply enc_ascii; [apply pchar_small|exact H1]|].
      eapply Forall_impl; [|exact H3]. intros x. apply g_seg_ascii.
    + split; [now constructor|]. destruct a; [congruence|discriminate].
Qed.
Lemma h_hier : hoare (hier_part_p v6_parse) (g_opt (g_hier V6)).
Proof.
  unfold hier_part_p. apply h_opt_g. apply h_or.
  - apply h_attempt. eapply h_map.
    + apply h_and_both; [apply h_right_both; [apply h_seqN with (R := fun _ s => s = bs "//"); reflexivity|apply h_authority]|apply (h_abempty false)].
    + intros [a p] s H. parts. destruct H0 as (l & -> & -> & H0 & _). subst. rewrite <- app_assoc. now constructor.
  - eapply h_map with (Q := fun p s => g_path p s /\ s <> []).
    + apply h_or; [apply h_attempt|apply h_rootless]. eapply h_weaken; [apply (h_abempty true)|].
      intros p s (l & -> & -> & H & K). split; [now constructor|auto].
    + intros p s [H K]. now constructor.
Qed.

(** ** Query, fragment, URI *)
Lemma h_code_point : hoare code_point (txt (enc c_query)).
Proof.
  unfold code_point. apply h_to_string, h_enc0. apply h_or; [apply h_pchar_q|].
  eapply txt_w; [apply h_collect_elt with (C := among (bs "/?"))|].
  - apply h_elm_of. intros x Hx. now split.
  - intros s. apply one_piece. unfold c_query. auto.
Qed.
Lemma h_key_values : hoare key_values g_param.
Proof.
  unfold key_values. eapply h_weaken.
  - apply h_and_both; [apply h_code_point|]. apply h_opt_g. apply h_right_both; [apply h_elm_e|apply h_code_point].
  - intros [k v] s H. parts. match goal with H : g_opt _ _ _ |- _ => destruct H as [|p t K] end.
    + rewrite app_nil_r. now constructor.
    + parts. now constructor.
Qed.
Lemma items_params : forall q s kv t, Items (fun kv s => exists x : N, both (elt (eq (chr "&"))) g_param (x, kv) s) q s -> g_param kv t -> g_params (kv :: q) (t ++ s).
Proof.
  intros q s kv t H. revert kv t. induction H as [|v s q u H _ IH]; intros kv t Hkv.
  - rewrite app_nil_r. now constructor.
  - parts. rewrite <- app_assoc. constructor; [exact Hkv|]. apply IH. assumption.
Qed.
Lemma h_query : hoare query_p g_params.
Proof.
  unfold query_p. eapply h_map.
  - apply h_and_both; [apply h_key_values|]. eapply h_many0 with (R := fun q s => Items _ q s); [apply h_right_both; [apply h_elm_e|apply h_key_values]| |].
    + intros v s H. parts. discriminate.
    + intros vs s H. exact H.
  - intros [a b] s H. parts. apply items_params; assumption.
Qed.
Lemma h_fragment : hoare fragment g_fragment.
Proof.
  unfold fragment. apply h_name. apply h_to_string, h_enc0. apply h_or.
  - eapply txt_w; [apply h_pchar|]. intros s. apply piece_w. unfold c_fragment. auto.
  - eapply txt_w; [apply h_collect_elt, h_among|]. intros s. apply one_piece. unfold c_fragment. auto.
Qed.
Lemma h_uri : hoare (uri_p v6_parse) (g_uri V6).
Proof.
  unfold uri_p. eapply h_map.
  - apply h_and_both; [apply h_and_both; [apply h_and_both; [apply h_left_both; [apply h_opt_g, h_scheme|apply h_elm_e]|apply h_hier]|
      apply h_opt_g with (P := fun q s => exists t, g_params q t /\ s = bs "?" ++ t)]|
      apply h_opt_g with (P := fun f s => exists t, g_fragment f t /\ s = bs "#" ++ t)].
    + eapply h_weaken; [apply h_right_both; [apply h_elm_e|apply h_query]|].
      intros v s H. parts. eexists. split; [eassumption|reflexivity].
    + eapply h_weaken; [apply h_right_both; [apply h_elm_e|apply h_fragment]|].
      intros v s H. parts. eexists. split; [eassumption|reflexivity].
  - intros [[[c h] q] f] s H. parts. rewrite <- !app_assoc. now constructor.
Qed.
End Oracle.
