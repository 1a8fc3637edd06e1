(** The URI crate: C42-C46 and C57-C59.  Grammar in UriSpec.v; the IPv6 functions of the standard library are arbitrary. *)
From Verif Require Import Base Core Comb Closure RepFacts LitFacts Hoare Runs Text Uri UriSpec UriFacts UriComplete.
Set Implicit Arguments.
Local Open Scope string_scope.
Local Open Scope nat_scope.
Local Open Scope list_scope.

(** ** C42: printing *)
(** The text that spells the port, with its colon. *)
Definition port_text (p : option N) (s : bytes) : Prop :=
  match p with None => s = [] | Some n => exists ds, s = bs ":" ++ ds /\ Forall digit ds /\ ds <> [] /\ dec_value ds = n end.
Definition show_port (p : option N) : bytes := match p with None => [] | Some n => bs ":" ++ show_dec n end.
Definition not_ipv6 (u : uri) : Prop := match uri_host u with Some (IpLiteral (Ipv6Address _)) => False | _ => True end.
Definition no_v6 (a : ipv6) (s : bytes) : Prop := True.

Lemma octet_show : forall v s, octet v s -> show_dec v = s.
Proof. intros v s (Hc & <- & _). now apply show_value. Qed.
Lemma ipv4_show : forall a s, g_ipv4 a s -> show_ipv4 a = s.
Proof.
  intros a s H. destruct H as [a b c d sa sb sc sd Ha Hb Hc Hd]. unfold show_ipv4.
  now rewrite (octet_show Ha), (octet_show Hb), (octet_show Hc), (octet_show Hd).
Qed.
Lemma params_show : forall q s, g_params q s -> show_query q = s.
Proof.
  assert (P : forall kv s, g_param kv s -> show_param kv = s) by (intros kv s H; now destruct H).
  intros q s H. unfold show_query. induction H as [kv s H|kv s q t H H' IH]; [cbn; now apply P|].
  cbn [map join]. rewrite (P _ _ H). destruct H'; cbn [map] in *; now rewrite IH.
Qed.
Lemma user_show : forall u s, g_user u s -> show_user u = s.
Proof. intros u s H. destruct H; unfold show_user; cbn; [apply app_nil_r|reflexivity]. Qed.
Lemma host_show : forall V6 v6_show h s, g_host V6 h s -> (forall a, h <> IpLiteral (Ipv6Address a)) -> show_host v6_show h = s.
Proof. intros V6 v6_show h s H Hn. destruct H as [s|a s H|a s H|]; cbn; try reflexivity; [now apply ipv4_show|]. exfalso. eapply Hn. reflexivity. Qed.
Lemma uri_show : forall V6 v6_show u s, g_uri V6 u s -> not_ipv6 u ->
  exists a pt b, s = a ++ pt ++ b /\ port_text (uri_port u) pt /\ show_uri v6_show u = a ++ show_port (uri_port u) ++ b.
Proof.
  intros V6 v6_show u s H Hn. destruct H as [c sc h sh q sq f sf Hc Hh Hq Hf].
  assert (Ec : show_opt (fun s => s) c = sc) by (destruct Hc as [|c s [-> _]]; reflexivity).
  assert (Eq : show_opt (fun q => bs "?" ++ show_query q) q = sq).
  { destruct Hq as [|q s (t & Ht & ->)]; [reflexivity|]. cbn [show_opt]. now rewrite (params_show Ht). }
  assert (Ef : show_opt (fun f => bs "#" ++ f) f = sf) by (destruct Hf as [|f s (t & [-> _] & ->)]; reflexivity).
  unfold show_uri. cbn [u_scheme u_hier u_query u_fragment]. rewrite Ec, Eq, Ef.
  destruct Hh as [|h sh Hh]; [exists (sc ++ bs ":" ++ sq ++ sf), [], []; cbn; now rewrite ?app_nil_r|].
  destruct Hh as [au s l Ha Hl|p s Hp Hne].
  - destruct Ha as [us su h sh p sp Hu Hh Hp]. cbn -[bs show_opt port_text show_port app] in *.
    assert (Eu : show_opt (fun u => show_user u ++ bs "@") us = su).
    { destruct Hu as [|u s (t & Ht & ->)]; [reflexivity|]. cbn [show_opt]. now rewrite (user_show Ht). }
    assert (Eh : show_host v6_show h = sh).
    { eapply host_show; [exact Hh|]. intros a ->. exact Hn. }
    exists (sc ++ bs ":" ++ bs "//" ++ su ++ sh), sp, (List.concat l ++ sq ++ sf).
    split; [now rewrite <- !app_assoc|]. split.
    + destruct Hp as [|n s (t & (T1 & T2 & T3 & T4) & ->)]; [reflexivity|]. now exists t.
    + cbn [show_opt hp_authority hp_path]. unfold show_authority. cbn [show_opt au_user au_host au_port]. rewrite Eu, Eh.
      replace (show_opt (fun n => bs ":" ++ show_dec n) p) with (show_port p) by now destruct p.
      unfold show_path. cbn [path_parts]. now rewrite <- !app_assoc.
  - exists (sc ++ bs ":" ++ s ++ sq ++ sf), [], []. cbn [show_opt hp_authority hp_path app show_port uri_port uri_authority u_hier].
    rewrite !app_nil_r. rewrite (g_path_show Hp). split; [reflexivity|]. split; [reflexivity|]. reflexivity.
Qed.
Lemma h_uri_any : forall v6_parse, hoare (uri_p v6_parse) (g_uri no_v6).
Proof. intros v6_parse. apply h_uri. eapply h_weaken; [apply h_v6|]. intros; exact I. Qed.
Lemma uri_success : forall v6_parse text u n, uri_parse v6_parse text = Success u n ->
  n <= length text /\ g_uri no_v6 u (firstn n text).
Proof.
  intros v6_parse text u n H. unfold uri_parse, parse in H.
  destruct (h_success (@h_uri_any v6_parse) (Nat.le_0_l _) H) as [H1 H2]. now split.
Qed.

(** The printed form is the consumed text, in which the digits of the port are normalised. *)
Theorem C42_print_normalises_port : forall v6_parse v6_show text u n,
  uri_parse v6_parse text = Success u n -> not_ipv6 u ->
  exists a pt b, firstn n text = a ++ pt ++ b /\ port_text (uri_port u) pt /\
    show_uri v6_show u = a ++ show_port (uri_port u) ++ b.
Proof.
  intros v6_parse v6_show text u n H Hn. apply uri_success in H. destruct H as [_ H]. now apply uri_show with (v6_show := v6_show) in H.
Qed.
(** No ":0" followed by a digit. *)
Definition no_zero_port (text : bytes) : Prop := forall a d b, digit d -> text <> a ++ bs ":0" ++ [d] ++ b.
Theorem C42_print_is_prefix : forall v6_parse v6_show text u n,
  uri_parse v6_parse text = Success u n -> not_ipv6 u -> no_zero_port text ->
  show_uri v6_show u = firstn n text /\ exists rest, text = show_uri v6_show u ++ rest.
Proof.
  intros v6_parse v6_show text u n H Hn Hz.
  destruct (C42_print_normalises_port _ v6_show _ H Hn) as (a & pt & b & E & Hp & Es).
  assert (K : show_port (uri_port u) = pt).
  { destruct (uri_port u) as [p|]; [|now symmetry]. destruct Hp as (ds & -> & Hd & Hne & <-). cbn [show_port]. f_equal.
    apply show_value. split; [exact Hd|]. split; [exact Hne|]. destruct ds as [|x [|y ds]]; try exact I. intros ->.
    assert (digit y) as Hy by (inv Hd; now inv H3).
    apply (Hz a y (ds ++ b ++ skipn n text) Hy). rewrite <- (firstn_skipn n text) at 1. rewrite E. repeat (rewrite <- ?app_assoc; cbn [app bs]). reflexivity. }
  rewrite K in Es. assert (show_uri v6_show u = firstn n text) by congruence. split; [assumption|].
  exists (skipn n text). rewrite H0. now rewrite firstn_skipn.
Qed.
(** Without the condition on the port it fails. *)
Theorem C42_leading_zero_refuted : exists text u n, forall v6_parse v6_show,
  uri_parse v6_parse text = Success u n /\ not_ipv6 u /\ show_uri v6_show u <> firstn n text.
Proof.
  exists (bs "http://h:0080/"). do 2 eexists. intros v6_parse v6_show.
  split; [vm_compute; reflexivity|]. split; [exact I|]. vm_compute. discriminate.
Qed.
Example C42_example : exists u n,
  uri_parse (fun _ => inr tt) (bs "http://u:p@1.2.3.4:8080/a//b?k=v&w#f rest") = Success u n /\ n = 36 /\ not_ipv6 u /\
  uri_port u = Some 8080%N /\ show_uri (fun _ => []) u = bs "http://u:p@1.2.3.4:8080/a//b?k=v&w#f".
Proof. do 2 eexists. split; [vm_compute; reflexivity|]. repeat split; vm_compute; reflexivity. Qed.
Print Assumptions C42_print_normalises_port.
Print Assumptions C42_print_is_prefix.
Print Assumptions C42_leading_zero_refuted.

(** ** C57: reading back *)
(** A text of the grammar is read with the value it spells; only a registered name that starts with an IPv4 address, and a
    path that starts with "//" while there is no authority, are excluded. *)
Definition only_plain_v6 (a : ipv6) (s : bytes) : Prop := False.
Theorem C57_grammar_accepted : forall v6_parse u text,
  g_uri only_plain_v6 u text -> plain_uri u -> uri_parse v6_parse text = Success u (length text).
Proof.
  intros v6_parse u text H Hp. unfold uri_parse, parse.
  assert (A : acc (uri_p v6_parse) text [] u) by (apply a_uri with (V6 := only_plain_v6); [intros ? ? ? []|exact H|exact Hp]).
  specialize (A []). cbn [app List.length] in A. now rewrite app_nil_r in A.
Qed.
(** Hence printing and reading a parsed URI gives it back. *)
Lemma port_range : forall V6 u s, g_uri V6 u s -> forall n, uri_port u = Some n -> (n <= 65535)%N.
Proof.
  intros V6 u s H n E. destruct H as [c sc h sh q sq f sf Hc Hh Hq Hf]. cbn in E. destruct Hh as [|h sh Hh]; [discriminate|].
  destruct Hh as [au s l Ha Hl|p s Hp Hne]; [|discriminate]. destruct Ha as [us su h sh p sp Hu Hh Hp]. cbn in E. subst p.
  inv Hp. match goal with H : exists _, _ |- _ => destruct H as (t & (_ & _ & _ & T) & _); exact T end.
Qed.
(** The grammar text in which the port has no superfluous zero. *)
Lemma uri_canonical : forall V6 v6_show u s, g_uri V6 u s -> not_ipv6 u -> g_uri only_plain_v6 u (show_uri v6_show u).
Proof.
  intros V6 v6_show u s H Hn. pose proof (uri_show v6_show H Hn) as _.
  destruct H as [c sc h sh q sq f sf Hc Hh Hq Hf].
  assert (Ec : show_opt (fun s => s) c = sc) by (destruct Hc as [|c s [-> _]]; reflexivity).
  assert (Eq : show_opt (fun q => bs "?" ++ show_query q) q = sq).
  { destruct Hq as [|q s (t & Ht & ->)]; [reflexivity|]. cbn [show_opt]. now rewrite (params_show Ht). }
  assert (Ef : show_opt (fun f => bs "#" ++ f) f = sf) by (destruct Hf as [|f s (t & [-> _] & ->)]; reflexivity).
  unfold show_uri. cbn [u_scheme u_hier u_query u_fragment]. rewrite Ec, Eq, Ef.
  rewrite (app_assoc (show_opt _ h) (show_opt _ h) (sq ++ sf)). constructor; [exact Hc| |exact Hq|exact Hf].
  destruct Hh as [|h sh Hh]; [constructor|]. constructor. cbn [show_opt].
  destruct Hh as [au s l Ha Hl|p s Hp Hne].
  - cbn [hp_authority hp_path show_opt]. unfold show_path. cbn [path_parts]. rewrite <- app_assoc. constructor; [|exact Hl].
    destruct Ha as [us su h sh p sp Hu Hh Hp]. unfold show_authority. cbn [au_user au_host au_port].
    cbn in Hn.
    assert (Eu : show_opt (fun u => show_user u ++ bs "@") us = su).
    { destruct Hu as [|u s (t & Ht & ->)]; [reflexivity|]. cbn [show_opt]. now rewrite (user_show Ht). }
    assert (Eh : show_host v6_show h = sh).
    { eapply host_show; [exact Hh|]. intros a ->. exact Hn. }
    rewrite Eu, Eh. constructor; [exact Hu| |].
    + destruct Hh as [s|a s|a s|]; [now constructor|now constructor|contradiction|now constructor].
    + destruct Hp as [|n s (t & (T1 & T2 & T3 & T4) & ->)]; [constructor|]. cbn [show_opt]. constructor. exists (show_dec n).
      split; [|reflexivity]. destruct (show_dec_canonical n) as (K1 & K2 & _). split; [exact K1|]. split; [exact K2|].
      split; [apply show_dec_value|exact T4].
  - cbn [hp_authority hp_path show_opt app]. rewrite (g_path_show Hp). now constructor.
Qed.
Theorem C57_print_read : forall v6_parse v6_parse' v6_show text u n,
  uri_parse v6_parse text = Success u n -> not_ipv6 u -> plain_uri u ->
  uri_parse v6_parse' (show_uri v6_show u) = Success u (length (show_uri v6_show u)).
Proof.
  intros v6_parse v6_parse' v6_show text u n H Hn Hp. apply uri_success in H. destruct H as [_ H].
  apply C57_grammar_accepted; [|exact Hp]. eapply uri_canonical; eassumption.
Qed.
(** The excluded registered names are indeed not read back: the host is cut and the rest is lost. *)
Theorem C57_reg_name_cut_refuted : exists u text n, forall v6_parse,
  g_uri only_plain_v6 u text /\ uri_host u = Some (RegName (bs "1.2.3.4x")) /\
  exists u', uri_parse v6_parse text = Success u' n /\ n < length text /\ uri_host u' = Some (Ipv4Address (1, 2, 3, 4)%N).
Proof.
  exists (mk_uri (Some (bs "s")) (Some (mk_hier (Some (mk_authority (RegName (bs "1.2.3.4x")) None None)) (AbemptyPath [bs "/p"]))) None None).
  exists (bs "s://1.2.3.4x/p"). eexists. intros v6_parse. split; [|split; [reflexivity|eexists; split; [vm_compute; reflexivity|split; [cbn; lia|reflexivity]]]].
  change (bs "s://1.2.3.4x/p") with (bs "s" ++ bs ":" ++ (bs "//" ++ (([] : bytes) ++ bs "1.2.3.4x" ++ []) ++ List.concat [bs "/p"]) ++ [] ++ []).
  constructor; try constructor.
  - split; [reflexivity|]. exists 115%N, []. split; [reflexivity|]. split; [unfold alpha; lia|constructor].
  - constructor; [constructor; constructor|].
    + repeat (apply enc_chr; [lit_class|]). constructor.
    + discriminate.
    + repeat constructor. exists (bs "p"). split; [reflexivity|]. apply enc_chr; [lit_class|constructor].
Qed.
Example C57_example : exists u, forall v6_parse v6_show,
  uri_parse v6_parse (bs "http://u@[v1.a:b]:080/p?a=%2f&b#x") = Success u 33 /\ not_ipv6 u /\ plain_uri u /\
  show_uri v6_show u = bs "http://u@[v1.a:b]:80/p?a=%2f&b#x".
Proof. eexists. intros v6_parse v6_show. split; [vm_compute; reflexivity|]. split; [exact I|]. split; [exact I|]. vm_compute. reflexivity. Qed.
Print Assumptions C57_grammar_accepted.
Print Assumptions C57_print_read.
Print Assumptions C57_reg_name_cut_refuted.

(** ** C43: what Uri::parse accepts *)
(** Claimed: the whole text.  False: *)
(** No URI contains a space. *)
Section NoSpace.
Variable V6 : ipv6 -> bytes -> Prop.
Let ok (x : N) : Prop := x <> 32%N.
Hypothesis HV6 : forall a s, V6 a s -> Forall ok s.
Lemma class_ok : forall (C : N -> Prop) f x, (forall x, f x = true <-> C x) -> f 32%N = false -> C x -> ok x.
Proof. intros C f x Hf Hn Hx ->. apply Hf in Hx. congruence. Qed.
Lemma enc_ok : forall C t, enc C t -> (forall x, C x -> ok x) -> Forall ok t.
Proof.
  intros C t H HC. induction H as [|y t Hy _ IH|a b t Ha Hb _ IH]; [constructor|constructor; auto|].
  repeat (constructor; [unfold hexdig, ok in *; (discriminate || lia)|]). exact IH.
Qed.
Lemma digits_ok : forall s, Forall digit s -> Forall ok s.
Proof. intros s H. eapply Forall_impl; [|exact H]. unfold digit, ok. intros. lia. Qed.
Lemma reg_ok : forall x, c_reg x -> ok x.
Proof. intros x. eapply class_ok; [apply reg_iff|reflexivity]. Qed.
Lemma pchar_ok : forall x, c_pchar x -> ok x.
Proof. intros x. eapply class_ok; [apply pchar_iff|reflexivity]. Qed.
Ltac lits := repeat constructor; unfold ok; discriminate.
Lemma seg_ok : forall l, Forall g_seg l -> Forall ok (List.concat l).
Proof.
  intros l H. induction H as [|x l (t & -> & Ht) _ IH]; [constructor|]. cbn [List.concat]. apply Forall_app. split; [|exact IH].
  constructor; [discriminate|]. eapply enc_ok; [exact Ht|apply pchar_ok].
Qed.
Lemma host_ok : forall h s, g_host V6 h s -> Forall ok s.
Proof.
  intros h s H. destruct H as [s H _|a s H|a s H|h s H1 H2 H3 H4].
  - eapply enc_ok; [exact H|apply reg_ok].
  - eapply enc_ok; [eapply ipv4_enc, H|apply reg_ok].
  - repeat (apply Forall_app; split); [lits|eapply HV6, H|lits].
  - repeat (apply Forall_app; split); try lits.
    + eapply Forall_impl; [|exact H1]. unfold hexdig, ok. intros. lia.
    + eapply Forall_impl; [|exact H3]. intros x [K| ->]; [now apply reg_ok|discriminate].
Qed.
Lemma uri_ok : forall u s, g_uri V6 u s -> Forall ok s.
Proof.
  intros u s H. destruct H as [c sc h sh q sq f sf Hc Hh Hq Hf]. repeat (apply Forall_app; split).
  - destruct Hc as [|c s [-> (x & t & -> & Hx & Ht)]]; [constructor|]. constructor; [unfold alpha, ok in *; lia|].
    eapply Forall_impl; [|exact Ht]. cbv beta. intros y [K|[K|K]]; [unfold alpha, ok in *; lia|unfold digit, ok in *; lia|].
    intros ->. vm_compute in K. repeat destruct K as [K|K]; try discriminate; contradiction.
  - lits.
  - destruct Hh as [|h sh Hh]; [constructor|]. destruct Hh as [au s l Ha Hl|p s Hp Hne].
    + destruct Ha as [us su h sh p sp Hu Hh Hp]. repeat (apply Forall_app; split); [lits|..|now apply seg_ok].
      * destruct Hu as [|u s (t & Ht & ->)]; [constructor|]. apply Forall_app; split; [|lits].
        destruct Ht as [n Hn|n p' Hn Hp' _]; repeat (apply Forall_app; split); try lits; (eapply enc_ok; [eassumption|apply reg_ok]).
      * eapply host_ok, Hh.
      * destruct Hp as [|n s (t & (T1 & _) & ->)]; [constructor|]. apply Forall_app; split; [lits|]. now apply digits_ok.
    + destruct Hp as [l Hl|s l Hs _ Hl]; [now apply seg_ok|]. apply Forall_app; split; [|now apply seg_ok].
      eapply enc_ok; [exact Hs|apply pchar_ok].
  - destruct Hq as [|q s (t & Ht & ->)]; [constructor|]. apply Forall_app; split; [lits|].
    assert (P : forall kv s, g_param kv s -> Forall ok s).
    { intros kv s K. destruct K; repeat (apply Forall_app; split); try lits; (eapply enc_ok; [eassumption|]);
        intros x; (eapply class_ok; [apply query_iff|reflexivity]). }
    induction Ht as [kv s K|kv s q t K _ IH]; [eapply P, K|]. repeat (apply Forall_app; split); [eapply P, K|lits|exact IH].
  - destruct Hf as [|f s (t & [_ Ht] & ->)]; [constructor|]. apply Forall_app; split; [lits|].
    eapply enc_ok; [exact Ht|]. intros x. eapply class_ok; [apply fragment_iff|reflexivity].
Qed.
End NoSpace.

Lemma ipv6_ok : forall a s, ipv6_text a s -> Forall (fun x => x <> 32%N) s.
Proof.
  assert (G : forall v s, group v s -> Forall (fun x => x <> 32%N) s).
  { intros v s (H & _). eapply Forall_impl; [|exact H]. unfold hexdig. intros. lia. }
  assert (C : forall v s, groups_colon v s -> Forall (fun x => x <> 32%N) s).
  { intros v s H. induction H as [|v s vs t H _ IH]; [constructor|]. apply Forall_app. split; [eapply G, H|]. constructor; [discriminate|exact IH]. }
  assert (L : forall v s, left_part v s -> Forall (fun x => x <> 32%N) s).
  { intros v s H. destruct H as [|vs t v s H1 H2]; [constructor|]. apply Forall_app. split; [eapply C, H1|eapply G, H2]. }
  assert (D : forall v s, octet v s -> Forall (fun x => x <> 32%N) s).
  { intros v s ((H & _) & _). eapply Forall_impl; [|exact H]. unfold digit. intros. lia. }
  assert (R : forall v s, right_part v s -> Forall (fun x => x <> 32%N) s).
  { intros v s H. destruct H as [vs t H|vs t us s H1 H2]; [eapply L, H|]. apply Forall_app. split; [eapply C, H1|].
    destruct H2 as [a b s t2 Ha Hb|a b c d s H4].
    - apply Forall_app. split; [eapply G, Ha|]. constructor; [discriminate|eapply G, Hb].
    - inv H4. repeat (apply Forall_app; split); try (eapply D; eassumption); repeat constructor; discriminate. }
  intros a s H. destruct H as [vs s H _|ls s rs t H1 H2 _]; [eapply R, H|].
  repeat (apply Forall_app; split); [eapply L, H1|repeat constructor; discriminate|eapply R, H2].
Qed.
Theorem C43_whole_text_refuted : exists text u n, forall v6_parse,
  uri_parse v6_parse text = Success u n /\ n < length text /\ forall w, ~ g_uri ipv6_text w text.
Proof.
  exists (bs "http://a b"). do 2 eexists. intros v6_parse. split; [vm_compute; reflexivity|]. split; [cbn; lia|].
  intros w H. apply (uri_ok ipv6_ok) in H. rewrite Forall_forall in H. apply (H 32%N); [vm_compute; tauto|reflexivity].
Qed.
(** What does hold: the consumed prefix is a URI and spells the result, provided the standard library reads IPv6 addresses
    correctly. *)
Theorem C43_prefix_is_uri_partial : forall v6_parse text u n,
  (forall s a, v6_parse s = inl a -> ipv6_text a s) ->
  uri_parse v6_parse text = Success u n -> n <= length text /\ g_uri ipv6_text u (firstn n text).
Proof.
  intros v6_parse text u n Ho H. unfold uri_parse, parse in H.
  assert (K : hoare (uri_p v6_parse) (g_uri ipv6_text)).
  { apply h_uri. eapply h_weaken; [apply h_v6|]. intros a s [E|E]; [exact E|now apply Ho]. }
  destruct (h_success K (Nat.le_0_l _) H) as [H1 H2]. now split.
Qed.
(** And exactly the texts that start with an optional scheme and a colon are accepted; the others are rejected and the parser
    never panics and always returns. *)
Lemma opt_succeeds : forall A (p : parser N A) Q inp off, hoare p Q -> off <= length inp ->
  exists v n, p_opt p inp off = Success v n /\ off + n <= length inp.
Proof.
  intros A p Q inp off H Ho. specialize (H inp off Ho). unfold p_opt, p_or, p_map, p_attempt, with_uncommitted.
  destruct (p inp off) as [v n|e c| |]; [|destruct c|contradiction|contradiction].
  - do 2 eexists. split; [reflexivity|]. apply H.
  - do 2 eexists. split; [reflexivity|]. lia.
  - do 2 eexists. split; [reflexivity|]. lia.
Qed.
Theorem C43_accepted_iff_partial : forall v6_parse text,
  match uri_parse v6_parse text with
  | Success _ _ => exists sc r, text = sc ++ bs ":" ++ r /\ (sc = [] \/ g_scheme sc sc)
  | Failure _ _ => ~ exists sc r, text = sc ++ bs ":" ++ r /\ (sc = [] \/ g_scheme sc sc)
  | Panic | Diverge => False
  end.
Proof.
  intros v6_parse text. pose proof (@h_uri_any v6_parse text 0 (Nat.le_0_l _)) as H. fold (parse (uri_p v6_parse) text) in H.
  fold (uri_parse v6_parse text) in H. destruct (uri_parse v6_parse text) as [u n|e c| |] eqn:E; try exact H.
  - destruct H as [_ H]. cbn [skipn] in H. rewrite <- (firstn_skipn n text). destruct H as [c sc h sh q sq f sf Hc Hh Hq Hf].
    exists sc, ((sh ++ sq ++ sf) ++ skipn n text). split; [now rewrite <- !app_assoc|]. destruct Hc as [|c s [-> K]]; [now left|right; now split].
  - intros (sc & r & -> & Hs). unfold uri_parse, parse, uri_p in E.
    assert (A : exists a, acc (p_skip_right (p_opt scheme) (p_elm (chr ":"))) (sc ++ bs ":") r a).
    { destruct Hs as [->|Hs].
      - exists None. eapply a_skip_right; [|apply a_elm]. eapply a_opt_none, r_scheme. reflexivity.
      - exists (Some sc). eapply a_skip_right; [|apply a_elm]. apply a_opt, a_scheme; [exact Hs|reflexivity]. }
    destruct A as [a A]. specialize (A []). cbn [app List.length] in A.
    rewrite <- app_assoc in A. set (text := sc ++ bs ":" ++ r) in *. set (k := length (sc ++ bs ":")) in *.
    assert (Hk : k <= length text) by (unfold k, text; rewrite !app_length; lia).
    unfold p_map in E. unfold p_and at 1 in E. unfold p_and at 1 in E. unfold p_and at 1 in E. rewrite A in E. cbn [Nat.add] in E.
    assert (V : hoare (ip_v6_address v6_parse) no_v6) by (eapply h_weaken; [apply h_v6|]; intros; exact I).
    pose proof (h_hier V) as Hh. unfold hier_part_p in E.
    match type of E with context [p_opt ?p text k] => destruct (@opt_succeeds _ p (g_hier no_v6) text k) as (v1 & n1 & E1 & L1); [|exact Hk|rewrite E1 in E] end.
    { clear E. pose proof (h_authority V) as Ha. apply h_or.
      - apply h_attempt. eapply h_map.
        + apply h_and_both; [apply h_right_both; [apply h_seqN with (R := fun _ s => s = bs "//"); reflexivity|exact Ha]|apply (h_abempty false)].
        + intros [x p] s H1. parts. destruct H1 as (l & -> & -> & H1 & _). subst. rewrite <- app_assoc. now constructor.
      - eapply h_map with (Q := fun p s => g_path p s /\ s <> []).
        + apply h_or; [apply h_attempt|apply h_rootless]. eapply h_weaken; [apply (h_abempty true)|].
          intros p s (l & -> & -> & H1 & K). split; [now constructor|auto].
        + intros p s [H1 K]. now constructor. }
    match type of E with context [p_opt ?p text ?o] => destruct (@opt_succeeds _ p (fun _ _ => True) text o) as (v2 & n2 & E2 & L2) end.
    { eapply h_skip_left; [apply h_elm_e|apply h_query|]. intros; exact I. }
    { lia. }
    rewrite Nat.add_assoc in E || idtac. rewrite E2 in E.
    match type of E with context [p_opt ?p text ?o] => destruct (@opt_succeeds _ p (fun _ _ => True) text o) as (v3 & n3 & E3 & L3) end.
    { eapply h_skip_left; [apply h_elm_e|apply h_fragment|]. intros; exact I. }
    { lia. }
    rewrite E3 in E. discriminate.
Qed.
Example C43_example :
  uri_parse (fun _ => inr tt) (bs "://x y") = Success (mk_uri None (Some (mk_hier (Some (mk_authority (RegName (bs "x")) None None)) (AbemptyPath []))) None None) 4 /\
  (exists e c, uri_parse (fun _ => inr tt) (bs "9http://x") = Failure e c) /\
  (exists a, ipv6_text a (bs "1::2.3.4.5") /\ a = [1; 0; 0; 0; 0; 0; 515; 1029]%N).
Proof.
  split; [vm_compute; reflexivity|]. split; [do 2 eexists; vm_compute; reflexivity|].
  eexists. split; [|shelve]. change (bs "1::2.3.4.5") with (bs "1" ++ bs "::" ++ ([] ++ (bs "2" ++ bs "." ++ bs "3" ++ bs "." ++ bs "4" ++ bs "." ++ bs "5"))).
  apply t6_short with (ls := [] ++ [1%N]) (rs := [] ++ [2 * 256 + 3; 4 * 256 + 5]%N).
  - apply lp_cons with (t := []); [constructor|]. split; [constructor; [left; split; discriminate|constructor]|]. split; [cbn; lia|reflexivity].
  - apply rp_last; [constructor|]. apply l32_ipv4. constructor;
      (split; [split; [constructor; [split; discriminate|constructor]|split; [discriminate|exact I]]|split; [reflexivity|lia]]).
  - cbn. lia.
  Unshelve. reflexivity.
Qed.
Print Assumptions C43_whole_text_refuted.
Print Assumptions C43_prefix_is_uri_partial.
Print Assumptions C43_accepted_iff_partial.

(** ** C44: the port *)
(** When a port is returned it is the value of digits that stand after a colon, and in range. *)
Theorem C44_port_value_partial : forall v6_parse text u m n,
  uri_parse v6_parse text = Success u m -> uri_port u = Some n ->
  (n <= 65535)%N /\ exists a ds b, firstn m text = a ++ bs ":" ++ ds ++ b /\ Forall digit ds /\ ds <> [] /\ dec_value ds = n /\
    match b with x :: _ => ~ digit x | [] => True end.
Proof.
  intros v6_parse text u m n H Hp. apply uri_success in H. destruct H as [_ H]. split; [eapply port_range; eassumption|].
  destruct H as [c sc h sh q sq f sf Hc Hh Hq Hf]. cbn in Hp. destruct Hh as [|h sh Hh]; [discriminate|].
  destruct Hh as [au s l Ha Hl|p s Hpp Hne]; [|discriminate]. destruct Ha as [us su h sh p sp Hu Hh Hpo]. cbn in Hp. subst p.
  inversion Hpo as [|x y (t & (T1 & T2 & T3 & T4) & Et)]. subst.
  exists (sc ++ bs ":" ++ bs "//" ++ su ++ sh), t, (List.concat l ++ sq ++ sf). split; [now rewrite <- !app_assoc|].
  split; [exact T1|]. split; [exact T2|]. split; [reflexivity|].
  destruct Hl as [|x l (y & -> & _) _].
  - destruct Hq as [|q s (y & _ & ->)]; [|cbn; unfold digit; lia].
    destruct Hf as [|f s (y & _ & ->)]; [exact I|cbn; unfold digit; lia].
  - cbn. unfold digit. lia.
Qed.
(** A port in range after a host is returned. *)
Theorem C44_port_in_range : forall v6_parse sc us su h sh ds l,
  g_scheme sc sc -> g_opt (fun u s => exists t, g_user u t /\ s = t ++ bs "@") us su -> g_host only_plain_v6 h sh -> plain_host h ->
  Forall digit ds -> ds <> [] -> (dec_value ds <= 65535)%N -> Forall g_seg l ->
  let text := sc ++ bs "://" ++ su ++ sh ++ bs ":" ++ ds ++ List.concat l in
  exists u, uri_parse v6_parse text = Success u (length text) /\ uri_port u = Some (dec_value ds) /\ uri_host u = Some h.
Proof.
  intros v6_parse sc us su h sh ds l Hs Hu Hh Hp Hd Hne Hr Hl text.
  exists (mk_uri (Some sc) (Some (mk_hier (Some (mk_authority h (Some (dec_value ds)) us)) (AbemptyPath l))) None None).
  split; [|split; reflexivity]. apply C57_grammar_accepted; [|exact Hp]. unfold text.
  replace (sc ++ bs "://" ++ su ++ sh ++ bs ":" ++ ds ++ List.concat l)
    with (sc ++ bs ":" ++ (bs "//" ++ (su ++ sh ++ (bs ":" ++ ds)) ++ List.concat l) ++ [] ++ [])
    by (rewrite !app_nil_r; repeat rewrite <- app_assoc; reflexivity).
  constructor; [now constructor| |constructor|constructor]. constructor. constructor; [|exact Hl]. constructor; [exact Hu|exact Hh|].
  constructor. exists ds. now repeat split.
Qed.
(** Any other port, empty or out of range, is dropped together with all that follows: the URI is accepted without it. *)
Theorem C44_bad_port_dropped : forall v6_parse sc us su h sh ds rest,
  g_scheme sc sc -> g_opt (fun u s => exists t, g_user u t /\ s = t ++ bs "@") us su -> g_host only_plain_v6 h sh -> plain_host h ->
  Forall digit ds -> ds = [] \/ (65535 < dec_value ds)%N -> starts (bs "/?#") rest ->
  uri_parse v6_parse (sc ++ bs "://" ++ su ++ sh ++ bs ":" ++ ds ++ rest) =
  Success (mk_uri (Some sc) (Some (mk_hier (Some (mk_authority h None us)) (AbemptyPath []))) None None)
    (length (sc ++ bs "://" ++ su ++ sh)).
Proof.
  intros v6_parse sc us su h sh ds rest Hs Hu Hh Hp Hd Hbad Hr.
  replace (sc ++ bs "://" ++ su ++ sh ++ bs ":" ++ ds ++ rest)
    with (((((sc ++ bs ":") ++ ((bs "//" ++ su ++ sh) ++ [])) ++ []) ++ []) ++ bs ":" ++ ds ++ rest)
    by (rewrite !app_nil_r; repeat rewrite <- app_assoc; reflexivity).
  replace (sc ++ bs "://" ++ su ++ sh) with (((((sc ++ bs ":") ++ ((bs "//" ++ su ++ sh) ++ [])) ++ []) ++ []))
    by (rewrite !app_nil_r; repeat rewrite <- app_assoc; reflexivity).
  unfold uri_parse. apply acc_parse. unfold uri_p.
  eapply a_map_eq with (v := (((Some sc, Some (mk_hier (Some (mk_authority h None us)) (AbemptyPath []))), None), None)); [|reflexivity].
  eapply a_and; [eapply a_and; [eapply a_and; [eapply a_skip_right; [|apply a_elm]|]|]|].
  - apply a_opt, a_scheme; [exact Hs|reflexivity].
  - unfold hier_part_p. apply a_opt, a_or1, a_attempt.
    eapply a_map_eq with (v := (mk_authority h None us, AbemptyPath [])); [|reflexivity].
    eapply a_and; [eapply a_skip_left; [apply a_seqN|]|].
    + cbn [app]. eapply a_authority_bad_port with (V6 := only_plain_v6); try eassumption. intros ? ? ? [].
    + unfold path_abempty. apply a_name. eapply a_map_eq; [|reflexivity].
      eapply a_repeat; [constructor| |cbn; lia]. apply r_to_string, r_slash. discriminate.
  - eapply a_opt_none, r_skip_left1, r_elm. discriminate.
  - eapply a_opt_none, r_skip_left1, r_elm. discriminate.
Qed.
Theorem C44_out_of_range_rejected_refuted : exists text u n, forall v6_parse,
  (exists a b, text = a ++ bs ":99999" ++ b) /\ uri_parse v6_parse text = Success u n /\ uri_port u = None.
Proof.
  exists (bs "http://h:99999/x"). do 2 eexists. intros v6_parse. split; [exists (bs "http://h"), (bs "/x"); reflexivity|].
  split; [vm_compute; reflexivity|reflexivity].
Qed.
Example C44_example : exists u, uri_parse (fun _ => inr tt) (bs "http://u@h.x:0443/p") = Success u 19 /\ uri_port u = Some 443%N /\
  uri_parse (fun _ => inr tt) (bs "http://u@h.x:/p") = Success (mk_uri (Some (bs "http")) (Some (mk_hier (Some (mk_authority (RegName (bs "h.x")) None
    (Some (mk_user (bs "u") None)))) (AbemptyPath []))) None None) 12 /\
  g_scheme (bs "http") (bs "http") /\ g_host only_plain_v6 (RegName (bs "h")) (bs "h").
Proof.
  eexists. split; [vm_compute; reflexivity|]. split; [vm_compute; reflexivity|]. split; [vm_compute; reflexivity|]. split.
  - split; [reflexivity|]. exists 104%N, (bs "ttp"). split; [reflexivity|]. split; [unfold alpha; lia|].
    repeat (constructor; [left; right; split; discriminate|]). constructor.
  - constructor; [apply enc_chr; [lit_class|constructor]|discriminate].
Qed.
Print Assumptions C44_port_value_partial.
Print Assumptions C44_port_in_range.
Print Assumptions C44_bad_port_dropped.
Print Assumptions C44_out_of_range_rejected_refuted.

(** ** C45: octets *)
Lemma longest : forall (f : nat -> bool) b, (exists n, n <= b /\ f n = true) -> exists n, n <= b /\ f n = true /\ forall m, n < m <= b -> f m = false.
Proof.
  intros f b. induction b as [|b IH]; intros (n & Hn & Hf).
  - exists n. split; [exact Hn|]. split; [exact Hf|]. intros m Hm. lia.
  - destruct (f (S b)) eqn:E; [exists (S b); split; [lia|split; [exact E|intros; lia]]|].
    destruct IH as (m & Hm & Hf' & Hmax); [exists n; split; [|exact Hf]; assert (n <> S b) by (intros ->; congruence); lia|].
    exists m. split; [lia|]. split; [exact Hf'|]. intros k Hk. destruct (Nat.eq_dec k (S b)) as [->|]; [exact E|apply Hmax; lia].
Qed.
Theorem C45_octet_longest : forall pre l,
  match dec_octet (pre ++ l) (length pre) with
  | Success v n => n <= length l /\ octet v (firstn n l) /\ forall m w, n < m <= length l -> ~ octet w (firstn m l)
  | Failure _ c => c = false /\ forall n v, n <= length l -> ~ octet v (firstn n l)
  | Panic | Diverge => False
  end.
Proof.
  intros pre l. destruct l as [|x l].
  - destruct (@r_octet [] I pre) as [e ->]. split; [reflexivity|]. intros n v Hn ((_ & K & _) & _). apply K. now rewrite firstn_nil.
  - destruct (dig x) eqn:Ed.
    + destruct (@longest (fun n => octet_ok (firstn n (x :: l))) (length (x :: l))) as (n & Hn & Hf & Hmax).
      { exists 1. split; [cbn; lia|]. cbn. exact Ed. }
      pose proof (proj2 (octet_iff _) Hf) as (v & Hv).
      assert (A : acc dec_octet (firstn n (x :: l)) (skipn n (x :: l)) v).
      { apply a_octet; [exact Hv|]. intros w t r E Hne K.
        assert (Ex : x :: l = (firstn n (x :: l) ++ t) ++ r) by (rewrite <- app_assoc, <- E; symmetry; apply firstn_skipn).
        assert (Lt : 0 < length t) by (destruct t; [congruence|cbn; lia]).
        assert (Ln : length (firstn n (x :: l)) = n) by (rewrite firstn_length; lia).
        assert (Lm : n + length t <= length (x :: l)) by (rewrite Ex, !app_length, Ln; lia).
        pose proof (proj1 (octet_iff _) (ex_intro _ w K)) as Ko.
        enough (octet_ok (firstn (n + length t) (x :: l)) = false) as F.
        { rewrite Ex in F. rewrite firstn_app in F. rewrite firstn_all2 in F by (rewrite app_length, Ln; lia).
          replace (n + length t - length (firstn n (x :: l) ++ t)) with 0 in F by (rewrite app_length, Ln; lia).
          cbn [firstn] in F. rewrite app_nil_r in F. congruence. }
        apply Hmax. lia. }
      specialize (A pre). rewrite firstn_skipn in A. rewrite A. rewrite firstn_length.
      replace (Nat.min n (length (x :: l))) with n by lia. split; [exact Hn|]. split; [exact Hv|].
      intros m w Hm K. specialize (Hmax m Hm). pose proof (proj1 (octet_iff _) (ex_intro _ w K)). congruence.
    + destruct (@r_octet (x :: l) Ed pre) as [e ->]. split; [reflexivity|]. intros n v Hn ((K & K' & _) & _).
      destruct n as [|n]; [now apply K'|]. inv K. unfold dig, in_range, digit in *. apply andb_false_iff in Ed. rewrite !N.leb_gt in Ed. lia.
Qed.
Example C45_example :
  map (fun s => dec_octet (bs s) 0) ["255"; "256"; "199x"; "07"; "1000"] =
    [Success 255%N 3; Success 25%N 2; Success 199%N 3; Success 0%N 1; Success 100%N 3] /\
  octet 255 (bs "255") /\ ~ octet 256 (bs "256").
Proof.
  split; [vm_compute; reflexivity|]. split; [split; [split; [repeat (constructor; [split; discriminate|]); constructor|split; [discriminate|discriminate]]|split; [reflexivity|lia]]|].
  intros (_ & _ & K). lia.
Qed.
Print Assumptions C45_octet_longest.

(** ** C46: query parameters *)
(** The values given for k, in order. *)
Definition values_of (k : bytes) (q : query) : list bytes :=
  flat_map (fun kv => if list_eq_dec N.eq_dec k (fst kv) then match snd kv with Some v => [v] | None => [] end else []) q.
Theorem C46_params : forall q k,
  get_param q k = if in_dec (list_eq_dec N.eq_dec) k (map fst q) then Some (values_of k q) else None.
Proof.
  intros q k. unfold get_param, query_params. induction q as [|[a v] q IH] using rev_ind; [reflexivity|].
  rewrite fold_left_app. cbn [fold_left]. unfold params_step at 1. set (m := fold_left params_step q []) in *.
  assert (A : values_of k (q ++ [(a, v)]) = values_of k q ++ (if list_eq_dec N.eq_dec k a then match v with Some w => [w] | None => [] end else [])).
  { unfold values_of. rewrite flat_map_app. cbn [flat_map fst snd]. now rewrite app_nil_r. }
  rewrite A. clear A. rewrite map_app. cbn [map fst].
  assert (O : ~ In k (map fst q) -> values_of k q = []).
  { clear. induction q as [|[b w] q IH]; intros H; [reflexivity|]. cbn [values_of flat_map fst snd]. cbn in H.
    destruct (list_eq_dec N.eq_dec k b) as [->|]; [exfalso; apply H; now left|]. cbn [app]. apply IH. tauto. }
  destruct (list_eq_dec N.eq_dec k a) as [->|Ha].
  - destruct (in_dec (list_eq_dec N.eq_dec) a (map fst q ++ [a])) as [_|Hn]; [|exfalso; apply Hn, in_or_app; right; now left].
    destruct (in_dec (list_eq_dec N.eq_dec) a (map fst q)) as [Hi|Hi]; rewrite IH; destruct v as [v|].
    + rewrite hm_get_set. now destruct (list_eq_dec N.eq_dec a a).
    + now rewrite IH, app_nil_r.
    + rewrite hm_get_set. rewrite (O Hi). now destruct (list_eq_dec N.eq_dec a a).
    + rewrite hm_get_set. rewrite (O Hi). now destruct (list_eq_dec N.eq_dec a a).
  - rewrite app_nil_r.
    assert (E : hm_get (match hm_get m a with None => match v with None => hm_set m a [] | Some w => hm_set m a [w] end
      | Some vs => match v with Some w => hm_set m a (vs ++ [w]) | None => m end end) k = hm_get m k).
    { destruct (hm_get m a); destruct v; rewrite ?hm_get_set; try reflexivity; now destruct (list_eq_dec N.eq_dec k a). }
    etransitivity; [|etransitivity; [exact IH|]].
    + rewrite <- E. destruct (hm_get m a); destruct v; reflexivity.
    + destruct (in_dec (list_eq_dec N.eq_dec) k (map fst q)) as [Hi|Hi];
        destruct (in_dec (list_eq_dec N.eq_dec) k (map fst q ++ [a])) as [Hj|Hj]; try reflexivity.
      * exfalso. apply Hj, in_or_app. now left.
      * exfalso. apply in_app_or in Hj. destruct Hj as [Hj|[Hj|[]]]; congruence.
Qed.
(** add appends to the values of its key and changes no other key; add_opt with no value does nothing. *)
Theorem C46_add : forall q k v k',
  get_param (query_add q k v) k' =
    (if list_eq_dec N.eq_dec k' k then Some (match get_param q k with Some vs => vs | None => [] end ++ [v]) else get_param q k') /\
  query_add_opt q k None = q.
Proof.
  intros q k v k'. split; [|reflexivity]. rewrite !C46_params. unfold query_add. rewrite map_app. cbn [map fst].
  unfold values_of. rewrite flat_map_app. cbn [flat_map fst snd]. rewrite app_nil_r.
  assert (O : ~ In k (map fst q) -> values_of k q = []).
  { clear. induction q as [|[b w] q IH]; intros H; [reflexivity|]. cbn [values_of flat_map fst snd]. cbn in H.
    destruct (list_eq_dec N.eq_dec k b) as [->|]; [exfalso; apply H; now left|]. cbn [app]. apply IH. tauto. }
  destruct (list_eq_dec N.eq_dec k' k) as [->|Hk].
  - destruct (in_dec (list_eq_dec N.eq_dec) k (map fst q ++ [k])) as [_|Hn]; [|exfalso; apply Hn, in_or_app; right; now left].
    destruct (in_dec (list_eq_dec N.eq_dec) k (map fst q)) as [Hi|Hi]; [reflexivity|]. fold (values_of k q). now rewrite (O Hi).
  - rewrite app_nil_r. destruct (in_dec (list_eq_dec N.eq_dec) k' (map fst q)) as [Hi|Hi];
      destruct (in_dec (list_eq_dec N.eq_dec) k' (map fst q ++ [k])) as [Hj|Hj]; try reflexivity.
    + exfalso. apply Hj, in_or_app. now left.
    + exfalso. apply in_app_or in Hj. destruct Hj as [Hj|[Hj|[]]]; congruence.
Qed.
Example C46_example :
  let q := [(bs "a", Some (bs "1")); (bs "b", None); (bs "a", None); (bs "a", Some (bs "2"))] in
  get_param q (bs "a") = Some [bs "1"; bs "2"] /\ get_param q (bs "b") = Some [] /\ get_param q (bs "c") = None /\
  get_param (query_add q (bs "c") (bs "3")) (bs "c") = Some [bs "3"].
Proof. repeat split; vm_compute; reflexivity. Qed.
Print Assumptions C46_params.
Print Assumptions C46_add.

(** ** C58: IPv6 literals *)
(** The text of an accepted IPv6 literal spells the address that is returned, if the standard library reads IPv6 texts correctly. *)
Theorem C58_ipv6_value_partial : forall v6_parse pre l a n,
  (forall s a, v6_parse s = inl a -> ipv6_text a s) ->
  ip_v6_address v6_parse (pre ++ l) (length pre) = Success a n -> n <= length l /\ ipv6_text a (firstn n l).
Proof.
  intros v6_parse pre l a n Ho H. pose proof (@h_v6 v6_parse (pre ++ l) (length pre) ltac:(rewrite app_length; lia)) as K.
  rewrite H in K. destruct K as [K1 K2]. rewrite app_length in K1. rewrite skipn_app, Nat.sub_diag, skipn_all in K2. cbn [skipn app] in K2.
  split; [lia|]. destruct K2 as [K2|K2]; [exact K2|now apply Ho].
Qed.
(** Seven groups followed by '::' are an IPv6 text that is not accepted, whatever the standard library does. *)
Theorem C58_all_ipv6_accepted_refuted : exists a s, ipv6_text a s /\ forall v6_parse, exists e c,
  ip_v6_address v6_parse (s ++ bs "]") 0 = Failure e c.
Proof.
  exists (([1; 2; 3; 4; 5; 6] ++ [7]) ++ repeat 0 1 ++ [])%N, (bs "1:2:3:4:5:6:7" ++ bs "::" ++ []). split.
  - apply (@t6_short ([1; 2; 3; 4; 5; 6] ++ [7])%N _ [] []); [|apply rp_left, lp_nil|cbn; lia].
    change (bs "1:2:3:4:5:6:7") with (bs "1:2:3:4:5:6:" ++ bs "7"). apply lp_cons.
    + apply (@gc_cons 1 (bs "1") _ (bs "2:3:4:5:6:")); [split; [constructor; [left; split; discriminate|constructor]|split; [cbn; lia|reflexivity]]|].
      apply (@gc_cons 2 (bs "2") _ (bs "3:4:5:6:")); [split; [constructor; [left; split; discriminate|constructor]|split; [cbn; lia|reflexivity]]|].
      apply (@gc_cons 3 (bs "3") _ (bs "4:5:6:")); [split; [constructor; [left; split; discriminate|constructor]|split; [cbn; lia|reflexivity]]|].
      apply (@gc_cons 4 (bs "4") _ (bs "5:6:")); [split; [constructor; [left; split; discriminate|constructor]|split; [cbn; lia|reflexivity]]|].
      apply (@gc_cons 5 (bs "5") _ (bs "6:")); [split; [constructor; [left; split; discriminate|constructor]|split; [cbn; lia|reflexivity]]|].
      apply (@gc_cons 6 (bs "6") _ []); [split; [constructor; [left; split; discriminate|constructor]|split; [cbn; lia|reflexivity]]|]. constructor.
    + split; [constructor; [left; split; discriminate|constructor]|split; [cbn; lia|reflexivity]].
  - intros v6_parse. do 2 eexists. vm_compute. reflexivity.
Qed.
Example C58_example : ip_v6_address (fun _ => inr tt) (bs "1:a:3:4:FFFF:6:1.2.3.4]") 0 = Success [1; 10; 3; 4; 65535; 6; 258; 772]%N 22.
Proof. vm_compute. reflexivity. Qed.
Print Assumptions C58_ipv6_value_partial.
Print Assumptions C58_all_ipv6_accepted_refuted.
