(** IPv6 addresses and the URIs that contain them: C102, C103.  The standard library is that of UriStd.v. *)
From Verif Require Import Base Core Comb Closure RepFacts LitFacts Hoare Runs Text Uri UriSpec UriFacts UriComplete UriV6 UriStd.
From Verif Require Import PropsE PropsN PropsP.
Set Implicit Arguments.
Local Open Scope string_scope.
Local Open Scope nat_scope.
Local Open Scope list_scope.

(** ** C102: IPv6 addresses *)
(** The standard library reads the texts of RFC 4291, with the value they denote, and no others. *)
Theorem C102_std_reads_rfc4291 : forall a s, std_v6_parse s = inl a <-> ipv6_text a s.
Proof. intros a s. split; [apply std_v6_sound|apply std_v6_complete]. Qed.
(** A text denotes one address. *)
Theorem C102_text_denotes_one : forall a b s, ipv6_text a s -> ipv6_text b s -> a = b.
Proof. intros a b s Ha Hb. apply std_v6_complete in Ha, Hb. congruence. Qed.
(** The address parser of the crate, at the end of the text or before a character that cannot continue an address, reads
    exactly these texts but seven groups followed by '::'. *)
Theorem C102_address_exact : forall a s pre rest,
  match rest with [] => True | x :: _ => is_ascii_hex_digit x = false /\ x <> chr ":" /\ x <> chr "." end ->
  ip_v6_address std_v6_parse (pre ++ s ++ rest) (length pre) = Success a (length s) <->
  ipv6_text a s /\ ~ seven_colons s.
Proof.
  intros a s pre rest Hend. split.
  - intros H. pose proof (@h_v6_text std_v6_parse std_v6_sound (pre ++ s ++ rest) (length pre)) as K.
    specialize (K ltac:(rewrite !app_length; lia)). rewrite H in K. destruct K as [_ K].
    rewrite skipn_app, skipn_all, Nat.sub_diag in K. cbn [skipn app] in K.
    rewrite firstn_app, Nat.sub_diag, firstn_all in K. cbn [firstn] in K. now rewrite app_nil_r in K.
  - intros H. apply (a_v6 std_v6_parse std_v6_complete rest Hend H pre).
Qed.
(** It never accepts anything else, wherever it stands, and these seven groups are refused whatever follows. *)
Theorem C102_address_sound : forall a n pre l,
  ip_v6_address std_v6_parse (pre ++ l) (length pre) = Success a n -> n <= length l /\ ipv6_text a (firstn n l) /\ ~ seven_colons (firstn n l).
Proof.
  intros a n pre l H. pose proof (@h_v6_text std_v6_parse std_v6_sound (pre ++ l) (length pre)) as K.
  specialize (K ltac:(rewrite !app_length; lia)). rewrite H in K. destruct K as [K1 K].
  rewrite skipn_app, skipn_all, Nat.sub_diag in K. cbn [skipn app] in K. rewrite app_length in K1. split; [lia|exact K].
Qed.
Theorem C102_seven_refused : forall v6_parse s pre rest, seven_colons s ->
  exists e c, ip_v6_address v6_parse (pre ++ s ++ rest) (length pre) = Failure e c.
Proof. intros v6_parse s pre rest H. destruct (r_v6_seven v6_parse rest H) as [c R]. destruct (R pre) as [e E]. eauto. Qed.
(** Printing an address of eight 16-bit segments gives a text that denotes it and that the crate accepts. *)
Theorem C102_print_read : forall a, length a = 8 -> Forall (fun x => x < 65536)%N a ->
  std_v6_parse (std_v6_show a) = inl a /\ forall pre rest,
  ip_v6_address std_v6_parse (pre ++ std_v6_show a ++ bs "]" ++ rest) (length pre) = Success a (length (std_v6_show a)).
Proof.
  intros a L H. pose proof (std_show_text L H) as T. split; [apply std_v6_complete, T|].
  intros pre rest. apply C102_address_exact; [|exact T]. split; [reflexivity|]. split; discriminate.
Qed.
Example C102_case : std_v6_show [8193; 3512; 0; 0; 1; 0; 0; 1]%N = bs "2001:db8::1:0:0:1" /\
  std_v6_show [0; 0; 0; 0; 0; 65535; 49320; 513]%N = bs "::ffff:192.168.2.1" /\
  std_v6_show [1; 2; 3; 4; 5; 6; 0; 8]%N = bs "1:2:3:4:5:6:0:8" /\ std_v6_show (repeat 0%N 8) = bs "::" /\
  ip_v6_address std_v6_parse (bs "1:A::b:127.0.0.1]:80") 0 = Success [1; 10; 0; 0; 0; 11; 32512; 1]%N 16 /\
  std_v6_parse (bs "1:2:3:4:5:6:7::") = inl [1; 2; 3; 4; 5; 6; 7; 0]%N /\ seven_colons (bs "1:2:3:4:5:6:7::").
Proof.
  repeat (split; [vm_compute; reflexivity|]). exists [1; 2; 3; 4; 5; 6; 7]%N, (bs "1:2:3:4:5:6:7"). split; [|split; reflexivity].
  apply (@show_groups_left [1; 2; 3; 4; 5; 6; 7]%N). repeat (apply Forall_cons; [reflexivity|]). apply Forall_nil.
Qed.
Print Assumptions C102_std_reads_rfc4291.
Print Assumptions C102_text_denotes_one.
Print Assumptions C102_address_exact.
Print Assumptions C102_address_sound.
Print Assumptions C102_seven_refused.
Print Assumptions C102_print_read.

(** ** C103: URIs with IPv6 hosts *)
Theorem C103_consumed_is_uri : forall text u n, uri_parse std_v6_parse text = Success u n ->
  n <= length text /\ g_uri v6_text u (firstn n text).
Proof.
  intros text u n H. unfold uri_parse, parse in H.
  destruct (h_success (h_uri (h_v6_text std_v6_parse std_v6_sound)) (Nat.le_0_l _) H) as [H1 H2]. now split.
Qed.
Theorem C103_grammar_accepted : forall u text, g_uri v6_text u text -> plain_uri u -> uri_parse std_v6_parse text = Success u (length text).
Proof.
  intros u text H Hp. unfold uri_parse, parse.
  assert (A : acc (uri_p std_v6_parse) text [] u) by (eapply a_uri; [apply (a_v6_bracket std_v6_parse std_v6_complete)|exact H|exact Hp]).
  specialize (A []). cbn [app List.length] in A. now rewrite app_nil_r in A.
Qed.
(** The value of an address. *)
Lemma group_segment : forall v s, group v s -> segment v.
Proof.
  intros v s (H & L & <-). pose proof (hex_value_bound H) as B. unfold segment.
  assert ((16 ^ N.of_nat (length s) <= 16 ^ 4)%N) by (apply N.pow_le_mono_r; lia). change (16 ^ 4)%N with 65536%N in *. lia.
Qed.
Lemma groups_segment : forall vs s, groups_colon vs s -> Forall segment vs.
Proof. intros vs s H. induction H as [|v s vs t H _ IH]; [constructor|]. constructor; [eapply group_segment, H|exact IH]. Qed.
Lemma right_segment : forall vs s, right_part vs s -> Forall segment vs.
Proof.
  intros vs s H. apply right_shape_of in H. destruct H as [|vs t v s H K|vs t a b c d s H K]; [constructor| |].
  - apply Forall_app. split; [eapply groups_segment, H|]. constructor; [eapply group_segment, K|constructor].
  - apply Forall_app. split; [eapply groups_segment, H|]. inv K.
    repeat match goal with O : octet _ _ |- _ => destruct O as (_ & _ & O) end. unfold segment.
    repeat (apply Forall_cons; [lia|]). apply Forall_nil.
Qed.
Lemma ipv6_value : forall a s, ipv6_text a s -> length a = 8 /\ Forall segment a.
Proof.
  intros a s H. destruct H as [vs s H L|ls s rs t HL HR HN].
  - split; [exact L|eapply right_segment, H].
  - split; [rewrite !app_length, repeat_length; lia|]. apply Forall_app. split; [eapply right_segment, rp_left, HL|].
    apply Forall_app. split; [|eapply right_segment, HR]. apply Forall_forall. intros x K. apply repeat_spec in K. now subst.
Qed.
Lemma uri_canonical6 : forall u s, g_uri ipv6_text u s -> g_uri v6_text u (show_uri std_v6_show u).
Proof.
  intros u s H. destruct H as [c sc h sh q sq f sf Hc Hh Hq Hf].
  assert (Ec : show_opt (fun s => s) c = sc) by (destruct Hc as [|c s [-> _]]; reflexivity).
  assert (Eq : show_opt (fun q => bs "?" ++ show_query q) q = sq).
  { destruct Hq as [|q s (t & Ht & ->)]; [reflexivity|]. cbn [show_opt]. now rewrite (params_show Ht). }
  assert (Ef : show_opt (fun f => bs "#" ++ f) f = sf) by (destruct Hf as [|f s (t & [-> _] & ->)]; reflexivity).
  unfold show_uri. cbn [u_scheme u_hier u_query u_fragment]. rewrite Ec, Eq, Ef.
  rewrite (app_assoc (show_opt _ h) (show_opt _ h) (sq ++ sf)). constructor; [exact Hc| |exact Hq|exact Hf].
  destruct Hh as [|h sh Hh]; [constructor|]. constructor. cbn [show_opt].
  destruct Hh as [au s l Ha Hl|p s Hp Hne].
  - cbn [hp_authority hp_path show_opt]. unfold show_path. cbn [path_parts]. rewrite <- app_assoc. constructor; [|exact Hl].
    destruct Ha as [us su h sh p sp Hu Hh Hp]. unfold show_authority. cbn [au_user au_host au_port].
    assert (Eu : show_opt (fun u => show_user u ++ bs "@") us = su).
    { destruct Hu as [|u s (t & Ht & ->)]; [reflexivity|]. cbn [show_opt]. now rewrite (user_show Ht). }
    rewrite Eu. constructor; [exact Hu| |].
    + destruct Hh as [s H1 H2|a s H1|a s H1|]; cbn [show_host show_ip_literal].
      * now constructor.
      * rewrite (ipv4_show H1). now constructor.
      * constructor. destruct (ipv6_value H1) as [L S]. now apply std_show_text.
      * now constructor.
    + destruct Hp as [|n s (t & (T1 & T2 & T3 & T4) & ->)]; [constructor|]. cbn [show_opt]. constructor. exists (show_dec n).
      split; [|reflexivity]. destruct (show_dec_canonical n) as (K1 & K2 & _). split; [exact K1|]. split; [exact K2|].
      split; [apply show_dec_value|exact T4].
  - cbn [hp_authority hp_path show_opt app]. rewrite (g_path_show Hp). now constructor.
Qed.
(** Printing a parsed URI and reading the text gives the URI back, whatever its host. *)
Theorem C103_print_read : forall text u n, uri_parse std_v6_parse text = Success u n -> plain_uri u ->
  uri_parse std_v6_parse (show_uri std_v6_show u) = Success u (length (show_uri std_v6_show u)).
Proof.
  intros text u n H Hp. apply (C43_prefix_is_uri_partial _ _ (fun s a => @std_v6_sound a s)) in H. destruct H as [_ H].
  apply C103_grammar_accepted; [|exact Hp]. eapply uri_canonical6, H.
Qed.
(** For the values [plain_uri] admits, a text is accepted whole exactly when it is a URI with that value. *)
Theorem C103_exact : forall u text, plain_uri u ->
  uri_parse std_v6_parse text = Success u (length text) <-> g_uri v6_text u text.
Proof.
  intros u text Hp. split; [|intros H; now apply C103_grammar_accepted].
  intros H. apply C103_consumed_is_uri in H. destruct H as [_ H]. now rewrite firstn_all in H.
Qed.
(** The same for absolute URIs, which may stop before a fragment. *)
Theorem C103_absolute_exact : forall u pre s rest, plain_uri u -> match rest with [] => True | x :: _ => x = chr "#" end ->
  absolute_uri std_v6_parse (pre ++ s ++ rest) (length pre) = Success u (length s) <->
  g_uri v6_text u s /\ u_fragment u = None.
Proof.
  intros u pre s rest Hp Hr. split.
  - intros H.
    assert (K : hoare (absolute_uri std_v6_parse) (fun u s => g_uri v6_text u s /\ u_fragment u = None)).
    { unfold absolute_uri. eapply h_map.
      - apply h_and_both; [apply h_and_both; [apply h_left_both; [apply h_opt_g, h_scheme|apply h_elm_e]|
          apply (h_hier (h_v6_text std_v6_parse std_v6_sound))]|
          apply h_opt_g with (P := fun q s => exists t, g_params q t /\ s = bs "?" ++ t)].
        eapply h_weaken; [apply h_right_both; [apply h_elm_e|apply h_query]|].
        intros v s' K. parts. eexists. split; [eassumption|reflexivity].
      - intros [[c h] q] s' K. parts. split; [|reflexivity]. rewrite <- !app_assoc.
        match goal with |- g_uri _ _ (?a ++ ?b ++ ?c ++ ?d) => rewrite <- (app_nil_r d) end. constructor; try assumption. constructor. }
    apply (h_success K) in H; [|rewrite app_length; lia]. destruct H as [_ H].
    rewrite skipn_app, skipn_all, Nat.sub_diag in H. cbn [skipn app] in H.
    rewrite firstn_app, Nat.sub_diag, firstn_all in H. cbn [firstn] in H. now rewrite app_nil_r in H.
  - intros [H Ha]. revert pre. change (acc (absolute_uri std_v6_parse) s rest u).
    destruct H as [c sc h sh q sq f sf Hc Hh Hq Hf]. cbn in Hp, Ha. subst f. inv Hf.
    unfold absolute_uri. eapply a_map_eq with (v := ((c, h), q)); [|reflexivity]. rewrite app_nil_r.
    replace (sc ++ bs ":" ++ sh ++ sq) with (((sc ++ bs ":") ++ sh) ++ sq) by now rewrite <- !app_assoc.
    assert (Sf : starts (bs "#") rest) by (destruct rest; [exact I|subst; now left]).
    assert (Sq : starts (bs "?#") (sq ++ rest)).
    { destruct Hq as [|q s (t & Ht & ->)]; [|left; reflexivity]. eapply starts_more; [|exact Sf]. intros x K. now right. }
    eapply a_and; [eapply a_and; [eapply a_skip_right; [|apply a_elm]|]|].
    + destruct Hc as [|c s [-> Hs]]; [eapply a_opt_none, r_scheme; reflexivity|]. apply a_opt, a_scheme; [now split|reflexivity].
    + eapply a_hier; [apply (a_v6_bracket std_v6_parse std_v6_complete)|exact Hh|exact Hp|exact Sq].
    + destruct Hq as [|q s (t & Ht & ->)]; [eapply a_opt_none, r_skip_left1, r_elm; eapply starts_not; [exact Sf|lit_notin]|].
      apply a_opt. eapply a_skip_left; [apply a_elm|]. now apply a_query.
Qed.
Example C103_example : let text := bs "http://me@[2001:DB8:0:0::0.0.0.1]:08080/p?k=v#f" in
  exists u, uri_parse std_v6_parse text = Success u (length text) /\ plain_uri u /\
    show_uri std_v6_show u = bs "http://me@[2001:db8::1]:8080/p?k=v#f" /\
    option_map au_host (uri_authority u) = Some (IpLiteral (Ipv6Address [8193; 3512; 0; 0; 0; 0; 0; 1]%N)).
Proof. eexists. split; [vm_compute; reflexivity|]. split; [vm_compute; exact I|]. split; vm_compute; reflexivity. Qed.
Print Assumptions C103_consumed_is_uri.
Print Assumptions C103_grammar_accepted.
Print Assumptions C103_print_read.
Print Assumptions C103_exact.
Print Assumptions C103_absolute_exact.

(** C94 with the standard library of UriStd.v: no assumption about IPv6 is left. *)
Theorem C94_components_std : forall text u n, uri_parse std_v6_parse text = Success u n ->
  exists s h q f, by_delimiters (firstn n text) = (s, Some h, q, f) /\
    u_scheme u = match s with [] => None | _ => Some s end /\
    match u_query u, q with Some ps, Some t => g_params ps t | None, None => True | _, _ => False end /\
    u_fragment u = f /\ (is_absolute u = true <-> ~ In (chr "#") (firstn n text)) /\
    match uri_authority u with
    | Some a => exists t, hier_by_delimiters h = (Some t, path_text u) /\ g_authority ipv6_text a t
    | None => h = path_text u
    end.
Proof. intros text u n H. exact (@C94_components_partial std_v6_parse text u n (fun s a => @std_v6_sound a s) H). Qed.
Print Assumptions C94_components_std.
