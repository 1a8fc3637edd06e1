(** C96–C98: the standalone path rules, editing a path, the rule for absolute URIs. *)
From Verif Require Import PropsE.
From Verif Require HoconLookup.
From Verif Require Import Base Core Comb Closure Hoare Runs Text Uri UriSpec UriFacts UriComplete.
Set Implicit Arguments.
Local Open Scope string_scope.
Local Open Scope nat_scope.
Local Open Scope list_scope.

(** ** C96: the path rules of RFC 3986, section 3.3 *)
(** segment-nz-nc: a non-empty segment without ':'. *)
Definition c_nc (x : N) : Prop := c_reg x \/ among (bs "@") x.
(** path-absolute = "/" [ segment-nz *( "/" segment ) ], path-noscheme = segment-nz-nc *( "/" segment ),
    path-rootless = segment-nz *( "/" segment ), path-abempty = *( "/" segment ); each with the parts it consists of. *)
Inductive rfc_absolute : list bytes -> bytes -> Prop :=
| ra_root : rfc_absolute [bs "/"] (bs "/")
| ra_segs : forall s l, enc c_pchar s -> s <> [] -> Forall g_seg l -> rfc_absolute (bs "/" :: s :: l) (bs "/" ++ s ++ List.concat l).
Inductive rfc_noscheme : list bytes -> bytes -> Prop :=
| rn : forall s l, enc c_nc s -> s <> [] -> Forall g_seg l -> rfc_noscheme (s :: l) (s ++ List.concat l).
Inductive rfc_rootless : list bytes -> bytes -> Prop :=
| rr : forall s l, enc c_pchar s -> s <> [] -> Forall g_seg l -> rfc_rootless (s :: l) (s ++ List.concat l).
Inductive rfc_abempty : list bytes -> bytes -> Prop :=
| re : forall l, Forall g_seg l -> rfc_abempty l (List.concat l).

Lemma nc_pchar : forall x, c_nc x -> c_pchar x.
Proof. intros x [H|H]; [now left|right]. vm_compute in H |- *. tauto. Qed.
Lemma enc_w : forall (C D : N -> Prop) s, (forall x, C x -> D x) -> enc C s -> enc D s.
Proof. intros C D s H K. induction K; [apply enc_nil|apply enc_chr; auto|apply enc_pct; auto]. Qed.
Lemma h_nc : hoare (p_or (p_or (p_or unreserved pct_encoded) sub_delims) (p_collect (p_elm (chr "@")))) (txt (piece c_nc)).
Proof.
  repeat apply h_or.
  - eapply txt_w; [apply h_unreserved|]. intros s. apply one_piece. unfold c_nc, c_reg. auto.
  - eapply txt_w; [apply h_pct|]. intros s H. now right.
  - eapply txt_w; [apply h_sub|]. intros s. apply one_piece. unfold c_nc, c_reg. auto.
  - eapply txt_w; [apply h_collect_elt, h_elm_e|]. intros s. apply one_piece. intros x <-. right. now left.
Qed.
Lemma h_slashes : hoare (p_many0 slash_segment) (fun l s => s = List.concat l /\ Forall g_seg l).
Proof.
  eapply h_many0; [apply h_slash| |].
  - intros v s [-> H]. now apply g_seg_ne.
  - intros vs s H. now apply items_txt in H.
Qed.
Lemma segs_ascii : forall l, Forall g_seg l -> Forall ascii l.
Proof. intros l H. eapply Forall_impl; [|exact H]. intros x. apply g_seg_ascii. Qed.
Lemma pchars_ascii : forall s, enc c_pchar s -> ascii s.
Proof. intros s H. eapply enc_ascii; [apply pchar_small|exact H]. Qed.
Lemma h_noscheme : hoare path_noscheme (fun p s => exists l, p = RootlessPath l /\ rfc_noscheme l s).
Proof.
  unfold path_noscheme. apply h_name. eapply h_map with (Q := rfc_noscheme); [|eauto].
  eapply h_map_panic with (Q := rfc_noscheme).
  - eapply h_map; [apply h_and_both; [apply h_name, h_enc1, h_nc|apply h_slashes]|].
    intros [a b] s H. parts. destruct H as [H1 H2]. destruct H0 as [-> H0]. now constructor.
  - intros l s H. exists l. split; [|exact H]. destruct H as [s l H1 H2 H3]. apply strings_of_ascii.
    constructor; [|now apply segs_ascii]. eapply pchars_ascii, enc_w; [|exact H1]. apply nc_pchar.
Qed.
Lemma h_absolute : hoare path_absolute (fun p s => exists l, p = AbsolutePath l /\ rfc_absolute l s).
Proof.
  unfold path_absolute. apply h_name. eapply h_map with (Q := rfc_absolute); [|eauto].
  eapply h_map_panic with (Q := rfc_absolute).
  - eapply h_map.
    + apply h_and_both; [apply h_collect_elt with (C := eq (chr "/")), h_elm_e|].
      apply h_opt_g with (P := rfc_rootless). eapply h_map; [apply h_and_both; [apply h_name, h_enc1, h_pchar|apply h_slashes]|].
      intros [a b] s H. parts. destruct H as [H1 H2]. destruct H0 as [-> H0]. now constructor.
    + intros [a b] s H. parts. destruct H as (? & -> & <-). destruct H0 as [|l s Hs].
      * rewrite app_nil_r. apply ra_root.
      * destruct Hs as [s l H1 H2 H3]. now apply (@ra_segs s l).
  - intros l s H. exists l. split; [|exact H]. destruct H as [|s l H1 H2 H3]; apply strings_of_ascii.
    + repeat constructor.
    + constructor; [repeat constructor|]. constructor; [now apply pchars_ascii|now apply segs_ascii].
Qed.
Lemma h_rootless' : hoare path_rootless (fun p s => exists l, p = RootlessPath l /\ rfc_rootless l s).
Proof.
  unfold path_rootless. apply h_name. eapply h_map with (Q := rfc_rootless); [|eauto].
  eapply h_map_panic with (Q := rfc_rootless).
  - eapply h_map; [apply h_and_both; [apply h_name, h_enc1, h_pchar|apply h_slashes]|].
    intros [a b] s H. parts. destruct H as [H1 H2]. destruct H0 as [-> H0]. now constructor.
  - intros l s H. exists l. split; [|exact H]. destruct H as [s l H1 H2 H3]. apply strings_of_ascii.
    constructor; [now apply pchars_ascii|now apply segs_ascii].
Qed.

(** What may follow a path: the end, or a character that neither a segment nor '/' can start with. *)
Definition path_ends (rest : bytes) : Prop := match rest with [] => True | x :: _ => ~ c_pchar x /\ x <> chr "%" /\ x <> chr "/" end.
Lemma ends_stop : forall l rest, Forall g_seg l -> path_ends rest -> stop c_pchar (List.concat l ++ rest).
Proof.
  intros l rest H Hr. destruct H as [|x l (t & -> & _) _]; [destruct rest; [exact I|]; cbn in *; tauto|]. cbn. lit_stop.
Qed.
Lemma ends_slash : forall rest, path_ends rest -> match rest with [] => True | x :: _ => x <> chr "/" end.
Proof. intros [|x r] H; [exact I|apply H]. Qed.
Lemma e_slash : forall s l rest, g_seg s -> Forall g_seg l -> path_ends rest -> acc slash_segment s (List.concat l ++ rest) s.
Proof.
  intros s l rest (t & -> & H) Hl Hr. unfold slash_segment. eapply a_collect. eapply a_and; [apply a_elm|].
  apply a_name. eapply a_enc0; [apply p_pchar|exact H|now apply ends_stop].
Qed.
Lemma e_slashes : forall l rest, Forall g_seg l -> path_ends rest -> acc (p_many0 slash_segment) (List.concat l) rest l.
Proof.
  intros l rest H Hr. eapply a_many0; [|apply r_slash; now apply ends_slash].
  induction H as [|x l Hx H IH]; [constructor|]. cbn [List.concat]. constructor; [now apply e_slash|now apply g_seg_ne|exact IH].
Qed.
Lemma p_nc : pieces (p_or (p_or (p_or unreserved pct_encoded) sub_delims) (p_collect (p_elm (chr "@")))) c_nc.
Proof.
  apply pieces_or; [|apply d_reg| |apply np_among; reflexivity].
  - apply pieces_or; [|apply d_unreserved|apply s_sub|apply np_among; reflexivity].
    apply pieces_base; [apply s_unreserved|apply d_unreserved|apply np_unreserved|now right].
  - split.
    + intros x rest [<-|[]]. eapply a_collect. apply a_elm.
    + intros l H. apply r_collect, r_elm. destruct l as [|x l]; [exact I|]. intros ->. apply H. now left.
Qed.
Lemma e_noscheme : forall l s rest, rfc_noscheme l s -> path_ends rest -> acc path_noscheme s rest (RootlessPath l).
Proof.
  intros l s rest H Hr. destruct H as [s l Hs Hne Hl]. unfold path_noscheme. apply a_name. eapply a_map_eq with (v := s :: l); [|reflexivity].
  eapply a_map_panic with (v := s :: l).
  - eapply a_map_eq with (v := (s, l)); [|reflexivity]. eapply a_and; [|now apply e_slashes].
    apply a_name. eapply a_enc1; [apply p_nc|exact Hs|exact Hne|].
    pose proof (ends_stop rest Hl Hr) as K. destruct (List.concat l ++ rest) as [|x t]; [exact I|]. split; [|apply K]. intros Kx. apply (proj1 K). now apply nc_pchar.
  - apply strings_of_ascii. constructor; [|now apply segs_ascii]. eapply pchars_ascii, enc_w; [|exact Hs]. apply nc_pchar.
Qed.
Lemma e_rootless : forall l s rest, rfc_rootless l s -> path_ends rest -> acc path_rootless s rest (RootlessPath l).
Proof.
  intros l s rest H Hr. destruct H as [s l Hs Hne Hl]. unfold path_rootless. apply a_name. eapply a_map_eq with (v := s :: l); [|reflexivity].
  eapply a_map_panic with (v := s :: l).
  - eapply a_map_eq with (v := (s, l)); [|reflexivity]. eapply a_and; [|now apply e_slashes].
    apply a_name. eapply a_enc1; [apply p_pchar|exact Hs|exact Hne|]. now apply ends_stop.
  - apply strings_of_ascii. constructor; [now apply pchars_ascii|now apply segs_ascii].
Qed.
Lemma e_abempty : forall (b : bool) l rest, Forall g_seg l -> (b = true -> l <> []) -> path_ends rest ->
  acc (path_abempty b) (List.concat l) rest (AbemptyPath l).
Proof.
  intros b l rest H Hb Hr. unfold path_abempty. apply a_name. eapply a_map_eq; [|reflexivity].
  eapply a_repeat; [| |].
  - clear Hb. induction H as [|x l Hx H IH]; [constructor|]. cbn [List.concat]. constructor; [|now apply g_seg_ne|exact IH].
    apply a_to_string; [now apply e_slash|now apply g_seg_ascii].
  - apply r_to_string, r_slash. now apply ends_slash.
  - destruct b; [|lia]. specialize (Hb eq_refl). destruct l; [congruence|cbn; lia].
Qed.
Lemma e_absolute : forall l s rest, rfc_absolute l s -> path_ends rest ->
  acc path_absolute s rest (AbsolutePath l).
Proof.
  intros l s rest H Hr. pose proof (@ends_stop [] rest (Forall_nil _) Hr) as Hs. unfold path_absolute. apply a_name. eapply a_map_eq with (v := l); [|reflexivity].
  destruct H as [|s l H1 H2 H3].
  - eapply a_map_panic with (v := [bs "/"]); [|apply strings_of_ascii; repeat constructor].
    eapply a_map_eq with (v := (bs "/", None)); [|reflexivity]. rewrite <- (app_nil_r (bs "/")) at 1.
    eapply a_and; [eapply a_collect; apply a_elm|]. eapply a_opt_none, r_map, r_and1, r_name. eapply r_enc1; [apply p_pchar|exact Hs].
  - eapply a_map_panic with (v := bs "/" :: s :: l).
    + eapply a_map_eq with (v := (bs "/", Some (s :: l))); [|reflexivity].
      eapply a_and; [eapply a_collect; apply a_elm|]. apply a_opt. eapply a_map_eq with (v := (s, l)); [|reflexivity].
      eapply a_and; [|now apply e_slashes]. apply a_name. eapply a_enc1; [apply p_pchar|exact H1|exact H2|now apply ends_stop].
    + apply strings_of_ascii. constructor; [repeat constructor|]. constructor; [now apply pchars_ascii|now apply segs_ascii].
Qed.

(** Each rule, on a text that is followed by something that cannot continue a path, accepts exactly the texts of the grammar and
    returns their parts. *)
Definition reads (p : parser N path) (k : list bytes -> path) (G : list bytes -> bytes -> Prop) : Prop :=
  (forall inp off, off <= length inp -> match p inp off with
     | Success v n => off + n <= length inp /\ exists l, v = k l /\ G l (firstn n (skipn off inp))
     | Failure _ _ => True
     | Panic | Diverge => False
     end) /\
  (forall pre s rest l, G l s -> path_ends rest -> p (pre ++ s ++ rest) (length pre) = Success (k l) (length s)).
Theorem C96_rules : reads path_absolute AbsolutePath rfc_absolute /\ reads path_noscheme RootlessPath rfc_noscheme /\
  reads path_rootless RootlessPath rfc_rootless /\ reads (path_abempty false) AbemptyPath rfc_abempty /\
  reads (path_abempty true) AbemptyPath (fun l s => rfc_abempty l s /\ l <> []).
Proof.
  assert (K : forall p k G, hoare p (fun v s => exists l, v = k l /\ G l s) -> (forall l s rest, G l s -> path_ends rest -> acc p s rest (k l)) -> reads p k G).
  { intros p k G H1 H2. split; [exact H1|]. intros pre s rest l HG Hr. now apply H2. }
  split; [|split; [|split; [|split]]]; apply K.
  - apply h_absolute.
  - apply e_absolute.
  - apply h_noscheme.
  - apply e_noscheme.
  - apply h_rootless'.
  - apply e_rootless.
  - eapply h_weaken; [apply h_abempty|]. intros v s (l & -> & -> & H & _). exists l. split; [reflexivity|now constructor].
  - intros l s rest [l' H] Hr. now apply e_abempty.
  - eapply h_weaken; [apply h_abempty|]. intros v s (l & -> & -> & H & Hb). exists l. split; [reflexivity|]. split; [now constructor|].
    intros ->. now apply Hb.
  - intros l s rest [[l' H] Hne] Hr. now apply e_abempty.
Qed.
Example C96_rules_example : path_absolute (bs "/a//b?") 0 = Success (AbsolutePath [bs "/"; bs "a"; bs "/"; bs "/b"]) 5 /\
  path_absolute (bs "//b") 0 = Success (AbsolutePath [bs "/"]) 1 /\
  path_noscheme (bs "a@/b:c") 0 = Success (RootlessPath [bs "a@"; bs "/b:c"]) 6 /\
  path_noscheme (bs "a:b") 0 = Success (RootlessPath [bs "a"]) 1 /\
  rfc_absolute [bs "/"; bs "a"; bs "/"; bs "/b"] (bs "/a//b").
Proof.
  repeat split; try (vm_compute; reflexivity). apply (@ra_segs (bs "a") [bs "/"; bs "/b"]); [|discriminate|].
  - apply enc_chr; [lit_class|constructor].
  - constructor; [exists []; split; [reflexivity|constructor]|]. constructor; [|constructor]. exists (bs "b"). split; [reflexivity|]. apply enc_chr; [lit_class|constructor].
Qed.

(** [path] never fails; a segment first gives a rootless path (even with a ':'), '/' first gives an abempty path, anything else
    gives none and consumes nothing. *)
Lemma nf_collect : forall A (p : parser N A) inp off, (forall e c, p inp off <> Failure e c) -> forall e c, p_collect p inp off <> Failure e c.
Proof. intros A p inp off H e c E. unfold p_collect in E. destruct (p inp off) as [v n|e' c'| |]; try discriminate; [destruct (slice_with_len inp off n); discriminate|]. now apply (H e' c'). Qed.
Lemma nf_name : forall A (p : parser N A) nm inp off, (forall e c, p inp off <> Failure e c) -> forall e c, p_name p nm inp off <> Failure e c.
Proof. intros A p nm inp off H e c E. unfold p_name in E. destruct (p inp off) as [v n|e' c'| |]; try discriminate. now apply (H e' c'). Qed.
Lemma abempty_on_slash : forall inp off l, off <= length inp -> skipn off inp = chr "/" :: l -> exists v n, path_abempty true inp off = Success v n.
Proof.
  intros inp off l Ho Hl. pose proof (h_abempty true inp Ho) as H.
  destruct (path_abempty true inp off) as [v n|e c| |] eqn:E; [eauto| |contradiction|contradiction]. exfalso. clear H.
  assert (Hs : exists v n, slash_segment inp off = Success v n).
  { pose proof (h_slash inp Ho) as K. destruct (slash_segment inp off) as [v n|e2 c2| |] eqn:E2; [eauto| |contradiction|contradiction]. exfalso. clear K.
    revert E2. apply nf_collect. intros e3 c3 E3. unfold p_and in E3.
    assert (E4 : p_elm (chr "/") inp off = Success (chr "/") 1).
    { pose proof (a_elm (chr "/") l (firstn off inp)) as A. rewrite firstn_length_le in A by exact Ho.
      rewrite <- (firstn_skipn off inp) at 1. rewrite Hl. exact A. }
    rewrite E4 in E3.
    assert (Ho' : off + 1 <= length inp).
    { rewrite <- (firstn_skipn off inp), app_length, firstn_length_le, Hl by exact Ho. cbn. lia. }
    destruct (segment inp (off + 1)) as [v n|e5 c5| |] eqn:E5; try discriminate. clear E3. revert E5. apply nf_name, nf_collect.
    apply HoconLookup.many0_no_fail; [eapply h_bounded, h_pchar|exact Ho']. }
  destruct Hs as (v & n & Hs). pose proof (h_success h_slash Ho Hs) as [_ [-> Hv]].
  revert E. apply nf_name. intros e2 c2 E2. unfold p_map in E2.
  destruct (p_repeat (to_string slash_segment) (rg_from 1) inp off) as [v' n'|e' c'| |] eqn:F; try discriminate. clear E2. revert F.
  eapply HoconLookup.many_no_fail; [eapply h_bounded, h_to_string, h_slash|exact Ho|cbn; lia|].
  unfold to_string, p_map_res, p_map. rewrite Hs, (ascii_utf8 (g_seg_ascii Hv)). reflexivity.
Qed.
Lemma path_no_absolute : hoare (p_or (p_or (p_or (p_attempt path_rootless) (p_attempt (path_abempty true))) (p_attempt path_absolute)) path_noscheme)
  (fun p s => match p with RootlessPath l => rfc_rootless l s | AbemptyPath l => rfc_abempty l s /\ l <> [] | _ => False end).
Proof.
  intros inp off Ho. unfold p_or, p_attempt, with_uncommitted.
  pose proof (h_rootless' inp Ho) as H1. destruct (path_rootless inp off) as [v n|e c| |]; [|clear H1|contradiction|contradiction].
  { destruct H1 as [L (l & -> & H1)]. now split. }
  replace (if c then Failure (A := path) e false else Failure e c) with (Failure (A := path) e false) by now destruct c.
  cbn [negb]. pose proof (h_abempty true inp Ho) as H2. pose proof (@abempty_on_slash inp off) as Hn.
  destruct (path_abempty true inp off) as [v n|e2 c2| |]; [|clear H2|contradiction|contradiction].
  { destruct H2 as [L (l & -> & -> & H2 & Hb)]. cbv beta iota. split; [exact L|]. split; [now constructor|]. intros ->. now apply Hb. }
  replace (if c2 then Failure (A := path) e2 false else Failure e2 c2) with (Failure (A := path) e2 false) by now destruct c2.
  cbn [negb]. pose proof (h_absolute inp Ho) as H3.
  destruct (path_absolute inp off) as [v n|e3 c3| |]; [exfalso|clear H3|contradiction|contradiction].
  { destruct H3 as [L (l & -> & H3)].
    assert (K : exists t, skipn off inp = chr "/" :: t).
    { rewrite <- (firstn_skipn n (skipn off inp)). destruct H3; eexists; reflexivity. }
    destruct K as [t K]. destruct (Hn t Ho K) as (v & m & E). discriminate. }
  replace (if c3 then Failure (A := path) e3 false else Failure e3 c3) with (Failure (A := path) e3 false) by now destruct c3.
  cbn [negb]. pose proof (h_noscheme inp Ho) as H4. destruct (path_noscheme inp off) as [v n|e4 c4| |]; [|exact I|contradiction|contradiction].
  destruct H4 as [L (l & -> & H4)]. cbv beta iota. split; [exact L|]. destruct H4 as [s l K1 K2 K3]. constructor; [|exact K2|exact K3].
  eapply enc_w; [|exact K1]. apply nc_pchar.
Qed.
Theorem C96_path : forall inp off, off <= length inp -> exists o n, path_p inp off = Success o n /\ off + n <= length inp /\
  match o with
  | None => n = 0
  | Some (RootlessPath l) => rfc_rootless l (firstn n (skipn off inp))
  | Some (AbemptyPath l) => rfc_abempty l (firstn n (skipn off inp)) /\ l <> []
  | Some _ => False
  end.
Proof.
  intros inp off Ho. destruct (opt_succeeds inp path_no_absolute Ho) as (o & n & E & L).
  exists o, n. unfold path_p, p_name. rewrite E. split; [reflexivity|]. split; [exact L|].
  pose proof (h_opt_g path_no_absolute inp Ho) as K. rewrite E in K. destruct K as [_ K]. inversion K as [E1 E2|p s Hp E1 E2]; subst.
  - symmetry in E2. apply (f_equal (@length _)) in E2. rewrite firstn_length, skipn_length in E2. cbn in E2. lia.
  - destruct p; exact Hp.
Qed.
Theorem C96_path_accepts : forall pre s rest l, path_ends rest ->
  (rfc_rootless l s -> path_p (pre ++ s ++ rest) (length pre) = Success (Some (RootlessPath l)) (length s)) /\
  (rfc_abempty l s -> l <> [] -> path_p (pre ++ s ++ rest) (length pre) = Success (Some (AbemptyPath l)) (length s)).
Proof.
  intros pre s rest l Hr. split.
  - intros H. revert pre. apply a_name, a_opt, a_or1, a_or1, a_or1, a_attempt. now apply e_rootless.
  - intros H Hne. revert pre. destruct H as [l H]. apply a_name, a_opt, a_or1, a_or1, a_or2; [|apply a_attempt; now apply e_abempty].
    eapply r_attempt, r_rootless. destruct H as [|x l (t & -> & _) _]; [congruence|]. cbn. lit_stop.
Qed.
(** Full statement: a path is read by the rule that its beginning selects.  False: a path that begins with '/' but not with "//"
    is a path-absolute, one that begins with a segment without ':' a path-noscheme; but no text gives a value of these kinds. *)
Theorem C96_kinds_refuted : exists l s, rfc_absolute l s /\ (exists l', path_p s 0 = Success (Some (AbemptyPath l')) (length s)) /\
  forall inp off l n, off <= length inp -> path_p inp off <> Success (Some (AbsolutePath l)) n /\
    path_p inp off <> Success (Some (NoSchemePath l)) n /\ path_p inp off <> Success (Some EmptyPath) n.
Proof.
  exists [bs "/"; bs "a"], (bs "/a"). split; [|split].
  - apply (@ra_segs (bs "a") []); [apply enc_chr; [lit_class|constructor]|discriminate|constructor].
  - eexists. vm_compute. reflexivity.
  - intros inp off l n Ho. destruct (C96_path inp Ho) as (o & m & -> & _ & H). repeat split; intros E; inv E; contradiction.
Qed.
Example C96_path_example : path_p (bs "a:b/c?") 0 = Success (Some (RootlessPath [bs "a:b"; bs "/c"])) 5 /\ path_p (bs "?") 0 = Success None 0 /\
  path_p (bs "/%zz") 0 = Success (Some (AbemptyPath [bs "/"])) 1.
Proof. repeat split; vm_compute; reflexivity. Qed.

(** The classes of RFC 3986, section 2.2. *)
Definition reads_one (p : parser N bytes) (C : N -> Prop) : Prop := forall pre x rest,
  (C x -> p (pre ++ x :: rest) (length pre) = Success [x] 1) /\
  (~ C x -> exists e, p (pre ++ x :: rest) (length pre) = Failure e false) /\
  exists e, p pre (length pre) = Failure e false.
Theorem C96_reserved : reads_one gen_delims (fun x => In x [58; 47; 63; 35; 91; 93; 64]%N) /\
  reads_one sub_delims (fun x => In x [33; 36; 38; 39; 40; 41; 42; 43; 44; 59; 61]%N) /\
  reads_one reserved (fun x => In x ([58; 47; 63; 35; 91; 93; 64] ++ [33; 36; 38; 39; 40; 41; 42; 43; 44; 59; 61])%N) /\
  reads_one unreserved (fun x => 65 <= x <= 90 \/ 97 <= x <= 122 \/ 48 <= x <= 57 \/ In x [45; 46; 95; 126])%N.
Proof.
  assert (K : forall p (C D : N -> Prop), single p C -> (forall x, C x <-> D x) -> reads_one p D).
  { intros p C D [P1 P2] H pre x rest. split; [|split].
    - intros Hx. apply H in Hx. exact (P1 x rest Hx pre).
    - intros Hx. rewrite <- H in Hx. exact (P2 (x :: rest) Hx pre).
    - destruct (P2 [] I pre) as [e E]. rewrite app_nil_r in E. eauto. }
  assert (G : single gen_delims (among (bs ":/?#[]@"))) by (eapply cls_single; [apply cls_name, cls_ref_of|apply among_iff]).
  split; [|split; [|split]].
  - eapply K; [exact G|]. reflexivity.
  - eapply K; [exact s_sub|]. reflexivity.
  - eapply K with (C := fun x => among (bs ":/?#[]@") x \/ c_sub_delims x); [|intros x; rewrite in_app_iff; reflexivity].
    apply single_name. split.
    + intros x rest Hx. destruct (d_among (bs ":/?#[]@") x) as [Hg|Hg]; [now apply a_or1, G|]. destruct Hx as [Hx|Hx]; [contradiction|].
      apply a_or2; [now apply G|now apply s_sub].
    + intros l Hl. apply r_or; [apply G|apply s_sub]; (destruct l; [exact I|]); tauto.
  - eapply K; [exact s_unreserved|]. intros x. unfold c_unreserved, alpha, digit, among. change (bs "-._~") with [45; 46; 95; 126]%N. tauto.
Qed.
Example C96_reserved_example : reserved (bs "@x") 0 = Success (bs "@") 1 /\ reserved (bs "=x") 0 = Success (bs "=") 1 /\
  (exists e, reserved (bs "%x") 0 = Failure e false) /\ (exists e, reserved (bs "~x") 0 = Failure e false).
Proof. repeat split; try (vm_compute; reflexivity); eexists; vm_compute; reflexivity. Qed.
Print Assumptions C96_rules.
Print Assumptions C96_path.
Print Assumptions C96_path_accepts.
Print Assumptions C96_kinds_refuted.
Print Assumptions C96_reserved.

(** ** C97: editing a path *)
(** The kind of a path. *)
Definition kind (p : path) : nat := match p with RootlessPath _ => 0 | AbemptyPath _ => 1 | AbsolutePath _ => 2 | NoSchemePath _ => 3 | EmptyPath => 4 end.
Theorem C97_text_appended_partial : forall p parts, p <> EmptyPath ->
  show_path (path_add_parts p parts) = show_path p ++ List.concat parts /\ kind (path_add_parts p parts) = kind p /\
  path_is_empty (path_add_parts p parts) = path_is_empty p && match parts with [] => true | _ => false end.
Proof.
  intros p parts. revert p. unfold path_add_parts. induction parts as [|x parts IH]; intros p Hp.
  - cbn [fold_left List.concat]. rewrite app_nil_r, andb_true_r. auto.
  - cbn [fold_left]. assert (Hq : path_add_part p x <> EmptyPath) by (destruct p; [discriminate..|congruence]).
    destruct (IH _ Hq) as (E1 & E2 & E3). rewrite E1, E2, E3. cbn [List.concat]. rewrite app_assoc.
    assert (L : forall l : list bytes, (match l ++ [x] with [] => true | _ => false end) = false) by (intros [|? ?]; reflexivity).
    destruct p as [l|l|l|l|]; try congruence; unfold show_path, path_is_empty; cbn [path_add_part path_parts kind];
      rewrite concat_app, L; cbn [List.concat]; rewrite app_nil_r, andb_false_r; auto.
Qed.
(** Full statement: for every path.  False of the empty path, which ignores what is added; this is also the default path. *)
Theorem C97_empty_refuted : exists p, (forall parts, path_add_parts p parts = p) /\ forall x l, show_path (path_add_parts p [x :: l]) <> show_path p ++ (x :: l).
Proof.
  exists EmptyPath. assert (E : forall parts, path_add_parts EmptyPath parts = EmptyPath) by (intros parts; unfold path_add_parts; induction parts; [reflexivity|assumption]).
  split; [exact E|]. intros x l. rewrite E. discriminate.
Qed.
Example C97_text_example : path_add_parts (AbsolutePath [bs "/"; bs "a"]) [bs "/b"; bs "/c"] = AbsolutePath [bs "/"; bs "a"; bs "/b"; bs "/c"].
Proof. reflexivity. Qed.
(** with_parts does not replace the parts: it adds them. *)
Theorem C97_with_parts_refuted : exists p parts, path_parts (path_with_parts p parts) <> parts.
Proof. exists (AbemptyPath [bs "/a"]), [bs "/b"]. discriminate. Qed.
(** Neither do the conversions look at the text: an absolute path need not start with '/'. *)
Theorem C97_to_absolute_refuted : exists p, kind (to_absolute p) = 2 /\ show_path (to_absolute p) = bs "a/b".
Proof. exists (RootlessPath [bs "a"; bs "/b"]). split; reflexivity. Qed.
Lemma add_parts_app : forall parts l, path_add_parts (AbemptyPath l) parts = AbemptyPath (l ++ parts) /\
  path_add_parts (RootlessPath l) parts = RootlessPath (l ++ parts).
Proof.
  unfold path_add_parts. induction parts as [|x parts IH]; intros l; cbn [fold_left path_add_part]; [now rewrite app_nil_r|].
  destruct (IH (l ++ [x])) as [-> ->]. now rewrite <- app_assoc.
Qed.
(** Adding segments to a path that was read, printing it and reading it again gives the edited path, whose text is the text
    read first followed by the segments. *)
Theorem C97_edit_path : forall inp off p n segs, off <= length inp -> path_p inp off = Success (Some p) n -> Forall g_seg segs ->
  show_path (path_add_parts p segs) = firstn n (skipn off inp) ++ List.concat segs /\
  path_p (show_path (path_add_parts p segs)) 0 = Success (Some (path_add_parts p segs)) (length (show_path (path_add_parts p segs))).
Proof.
  intros inp off p n segs Ho E Hs. destruct (C96_path inp Ho) as (o & m & E' & _ & H). rewrite E in E'. inv E'.
  assert (A : forall s l, (rfc_rootless l s -> path_p s 0 = Success (Some (RootlessPath l)) (length s)) /\
    (rfc_abempty l s -> l <> [] -> path_p s 0 = Success (Some (AbemptyPath l)) (length s))).
  { intros s l. pose proof (@C96_path_accepts [] s [] l I) as K. rewrite app_nil_r in K. exact K. }
  destruct p as [l|l|l|l|]; try contradiction.
  - destruct (add_parts_app segs l) as [_ ->]. destruct H as [s l H1 H2 H3]. unfold show_path. cbn [path_parts].
    rewrite concat_app. cbn [List.concat]. split; [reflexivity|]. apply A. rewrite <- app_assoc, <- concat_app. apply rr; [exact H1|exact H2|].
    now apply Forall_app.
  - destruct (add_parts_app segs l) as [-> _]. destruct H as [[l' H] Hne]. unfold show_path. cbn [path_parts].
    rewrite concat_app. split; [reflexivity|]. rewrite <- concat_app. apply A.
    + constructor. now apply Forall_app.
    + intros K. now apply app_eq_nil in K.
Qed.
(** The same inside a URI. *)
Definition edited (u : uri) (segs : list bytes) : uri :=
  mk_uri (u_scheme u) (match u_hier u with Some h => Some (mk_hier (hp_authority h) (path_add_parts (hp_path h) segs)) | None => None end)
         (u_query u) (u_fragment u).
Theorem C97_edit_uri_partial : forall v6_parse v6_parse' v6_show text u n segs,
  uri_parse v6_parse text = Success u n -> not_ipv6 u -> Forall g_seg segs -> plain_uri (edited u segs) ->
  uri_parse v6_parse' (show_uri v6_show (edited u segs)) = Success (edited u segs) (length (show_uri v6_show (edited u segs))).
Proof.
  intros v6_parse v6_parse' v6_show text u n segs H Hn Hs Hp. apply C57_grammar_accepted; [|exact Hp].
  apply uri_success in H. destruct H as [_ H].
  assert (K : exists s, g_uri no_v6 (edited u segs) s).
  { destruct H as [c sc h sh q sq f sf Hc Hh Hq Hf]. unfold edited. cbn [u_scheme u_hier u_query u_fragment].
    destruct Hh as [|h s Hh]; [eexists; constructor; eauto; constructor|].
    assert (Kh : exists s', g_hier no_v6 (mk_hier (hp_authority h) (path_add_parts (hp_path h) segs)) s').
    { destruct Hh as [a s l Ha Hl|p s Hg Hne]; cbn [hp_authority hp_path].
      - destruct (add_parts_app segs l) as [-> _]. eexists. constructor; [exact Ha|now apply Forall_app].
      - destruct Hg as [l Hl|s l H1 H2 H3].
        + destruct (add_parts_app segs l) as [-> _]. eexists. apply ghp_path; [constructor; now apply Forall_app|].
          rewrite concat_app. intros K. apply app_eq_nil in K. tauto.
        + destruct (add_parts_app segs (s :: l)) as [_ ->]. cbn [app]. eexists. apply ghp_path; [constructor; [exact H1|exact H2|now apply Forall_app]|].
          intros K. apply app_eq_nil in K. tauto. }
    destruct Kh as [s' Kh]. eexists. constructor; [exact Hc|constructor; exact Kh|exact Hq|exact Hf]. }
  destruct K as [s K]. eapply uri_canonical; [exact K|].
  unfold not_ipv6, uri_host, uri_authority in *. cbn [edited u_hier]. destruct (u_hier u); exact Hn.
Qed.
(** Full statement: without the condition on the edited URI.  False: adding a segment to the path "/" of a URI without authority
    turns the segment into the authority. *)
Theorem C97_edit_uri_refuted : exists text u n segs, forall v6_parse v6_show, uri_parse v6_parse text = Success u n /\ not_ipv6 u /\ Forall g_seg segs /\
  uri_authority (edited u segs) = None /\
  exists u', uri_parse v6_parse (show_uri v6_show (edited u segs)) = Success u' (length (show_uri v6_show (edited u segs))) /\
    uri_authority u' = Some (mk_authority (RegName (bs "x")) None None).
Proof.
  exists (bs "a:/"). do 2 eexists. exists [bs "/x"]. intros v6_parse v6_show. split; [vm_compute; reflexivity|]. split; [exact I|].
  split; [constructor; [|constructor]; exists (bs "x"); split; [reflexivity|]; apply enc_chr; [lit_class|constructor]|].
  split; [reflexivity|]. eexists. split; vm_compute; reflexivity.
Qed.
Example C97_edit_example : exists u, uri_parse (fun _ => inr tt) (bs "http://h/a?q#f") = Success u 14 /\
  show_uri (fun _ => []) (edited u [bs "/b"; bs "/"]) = bs "http://h/a/b/?q#f".
Proof. eexists. split; vm_compute; reflexivity. Qed.
Print Assumptions C97_text_appended_partial.
Print Assumptions C97_empty_refuted.
Print Assumptions C97_edit_path.
Print Assumptions C97_edit_uri_partial.
Print Assumptions C97_edit_uri_refuted.

(** ** C98: absolute URIs *)
(** absolute-URI = scheme ":" hier-part [ "?" query ]: reads what [uri] reads, without the fragment. *)
Definition without_fragment (u : uri) : uri := mk_uri (u_scheme u) (u_hier u) (u_query u) None.
Theorem C98_uri_without_fragment : forall v6_parse inp off, off <= length inp ->
  match uri_p v6_parse inp off with
  | Success u n => exists m, absolute_uri v6_parse inp off = Success (without_fragment u) m /\ off + m <= length inp /\ m <= n /\
      firstn (n - m) (skipn (off + m) inp) = match u_fragment u with Some f => bs "#" ++ f | None => [] end
  | Failure e c => absolute_uri v6_parse inp off = Failure e c
  | Panic | Diverge => False
  end.
Proof.
  intros v6_parse inp off Ho. pose proof (@h_uri_any v6_parse inp off Ho) as Hu. unfold absolute_uri. unfold uri_p in *.
  set (X := p_and (p_and (p_skip_right (p_opt scheme) (p_elm (chr ":"))) (hier_part_p v6_parse)) (p_opt (p_skip_left (p_elm (chr "?")) query_p))) in *.
  assert (Hx : hoare X (fun _ _ => True)).
  { assert (V : hoare (ip_v6_address v6_parse) no_v6) by (eapply h_weaken; [apply h_v6|]; intros; exact I).
    eapply h_weaken; [unfold X; apply h_and_both; [apply h_and_both; [apply h_left_both; [apply h_opt_g, h_scheme|apply h_elm_e]|apply (h_hier V)]|
      apply h_opt_g, h_right_both; [apply h_elm_e|apply h_query]]|auto]. }
  assert (Hf : hoare (p_opt (p_skip_left (p_elm (chr "#")) fragment)) (g_opt (fun f s => exists t, g_fragment f t /\ s = bs "#" ++ t))).
  { apply h_opt_g. eapply h_weaken; [apply h_right_both; [apply h_elm_e|apply h_fragment]|]. intros v s H. parts. eexists. split; [eassumption|reflexivity]. }
  unfold p_map in *. unfold p_and at 1 in Hu. unfold p_and at 1. specialize (Hx inp off Ho).
  destruct (X inp off) as [[[a b] c] m|e c| |]; [|reflexivity|contradiction|contradiction]. destruct Hx as [L _].
  destruct (@opt_succeeds _ (p_skip_left (p_elm (chr "#")) fragment) (fun _ _ => True) inp (off + m)) as (o & k & E & Lk).
  { eapply h_skip_left; [apply h_elm_e|apply h_fragment|]. intros; exact I. }
  { exact L. }
  specialize (Hf inp (off + m) L). rewrite E in Hu, Hf |- *. destruct Hf as [_ Hf]. exists m. split; [reflexivity|]. split; [exact L|].
  split; [lia|]. replace (m + k - m) with k by lia. cbn [u_fragment]. destruct Hf as [|f s (t & [-> _] & ->)]; reflexivity.
Qed.
(** It accepts exactly the URIs without a fragment, whatever fragment follows. *)
Theorem C98_sound_partial : forall v6_parse inp off u n, (forall s a, v6_parse s = inl a -> ipv6_text a s) -> off <= length inp ->
  absolute_uri v6_parse inp off = Success u n ->
  off + n <= length inp /\ g_uri ipv6_text u (firstn n (skipn off inp)) /\ is_absolute u = true.
Proof.
  intros v6_parse inp off u n Ho L H.
  assert (V : hoare (ip_v6_address v6_parse) ipv6_text) by (eapply h_weaken; [apply h_v6|]; intros a s [E|E]; [exact E|now apply Ho]).
  assert (K : hoare (absolute_uri v6_parse) (fun u s => g_uri ipv6_text u s /\ is_absolute u = true)).
  { unfold absolute_uri. eapply h_map.
    - apply h_and_both; [apply h_and_both; [apply h_left_both; [apply h_opt_g, h_scheme|apply h_elm_e]|apply (h_hier V)]|
        apply h_opt_g with (P := fun q s => exists t, g_params q t /\ s = bs "?" ++ t)].
      eapply h_weaken; [apply h_right_both; [apply h_elm_e|apply h_query]|].
      intros v s K. parts. eexists. split; [eassumption|reflexivity].
    - intros [[c h] q] s K. parts. split; [|reflexivity]. rewrite <- !app_assoc.
      match goal with |- g_uri _ _ (?a ++ ?b ++ ?c ++ ?d) => rewrite <- (app_nil_r d) end. constructor; try assumption. constructor. }
  exact (h_success K L H).
Qed.
Theorem C98_complete : forall v6_parse pre u s rest, g_uri only_plain_v6 u s -> plain_uri u -> is_absolute u = true ->
  match rest with [] => True | x :: _ => x = chr "#" end ->
  absolute_uri v6_parse (pre ++ s ++ rest) (length pre) = Success u (length s).
Proof.
  intros v6_parse pre u s rest H Hp Ha Hr. revert pre. change (acc (absolute_uri v6_parse) s rest u).
  destruct H as [c sc h sh q sq f sf Hc Hh Hq Hf]. unfold is_absolute in Ha. cbn in Hp, Ha. destruct f; [discriminate|]. inv Hf.
  unfold absolute_uri. eapply a_map_eq with (v := ((c, h), q)); [|reflexivity]. rewrite app_nil_r.
  replace (sc ++ bs ":" ++ sh ++ sq) with (((sc ++ bs ":") ++ sh) ++ sq) by now rewrite <- !app_assoc.
  assert (Sf : starts (bs "#") rest) by (destruct rest; [exact I|subst; now left]).
  assert (Sq : starts (bs "?#") (sq ++ rest)).
  { destruct Hq as [|q s (t & Ht & ->)]; [|left; reflexivity]. eapply starts_more; [|exact Sf]. intros x K. now right. }
  eapply a_and; [eapply a_and; [eapply a_skip_right; [|apply a_elm]|]|].
  - destruct Hc as [|c s [-> Hs]]; [eapply a_opt_none, r_scheme; reflexivity|]. apply a_opt, a_scheme; [now split|reflexivity].
  - eapply a_hier; [|exact Hh|exact Hp|exact Sq]. intros ? ? ? [].
  - destruct Hq as [|q s (t & Ht & ->)]; [eapply a_opt_none, r_skip_left1, r_elm; eapply starts_not; [exact Sf|lit_notin]|].
    apply a_opt. eapply a_skip_left; [apply a_elm|]. now apply a_query.
Qed.
(** Full statement: the URIs that [is_absolute] accepts have a scheme (RFC 3986, section 4.3).  False: the scheme is optional. *)
Theorem C98_scheme_refuted : exists text u n, forall v6_parse, absolute_uri v6_parse text 0 = Success u n /\ n = length text /\
  is_absolute u = true /\ u_scheme u = None.
Proof. exists (bs "://h/p"). do 2 eexists. intros v6_parse. repeat split; vm_compute; reflexivity. Qed.
Example C98_example : exists u, absolute_uri (fun _ => inr tt) (bs "http://h/p?k=v#f") 0 = Success u 14 /\ is_absolute u = true /\
  u_query u = Some [(bs "k", Some (bs "v"))].
Proof. eexists. repeat split; vm_compute; reflexivity. Qed.
Print Assumptions C98_uri_without_fragment.
Print Assumptions C98_sound_partial.
Print Assumptions C98_complete.
Print Assumptions C98_scheme_refuted.
