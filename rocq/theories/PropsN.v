(** C94: the components of a URI by its delimiters. *)
From Verif Require Import PropsE.
From Verif Require Import Base Core Comb Closure Text Uri UriSpec UriFacts UriComplete.
Set Implicit Arguments.
Local Open Scope string_scope.
Local Open Scope nat_scope.
Local Open Scope list_scope.

(** [s] up to the first [k], and what comes after it. *)
Fixpoint cut (k : N) (s : bytes) : bytes * option bytes :=
  match s with
  | [] => ([], None)
  | x :: s' => if N.eq_dec x k then ([], Some s') else let '(a, b) := cut k s' in (x :: a, b)
  end.
Lemma cut_none : forall k s, ~ In k s -> cut k s = (s, None).
Proof. intros k s H. induction s as [|x s IH]; [reflexivity|]. cbn. destruct (N.eq_dec x k); [exfalso; apply H; now left|]. rewrite IH; [reflexivity|]. intros K. apply H. now right. Qed.
Lemma cut_some : forall k s t, ~ In k s -> cut k (s ++ k :: t) = (s, Some t).
Proof.
  intros k s t H. induction s as [|x s IH]; cbn; [destruct (N.eq_dec k k); congruence|]. destruct (N.eq_dec x k); [exfalso; apply H; now left|].
  rewrite IH; [reflexivity|]. intros K. apply H. now right.
Qed.

(** *** Which delimiters a part cannot contain *)
Section Free.
Variable k : N.
Lemma free_app : forall s t : bytes, ~ In k s -> ~ In k t -> ~ In k (s ++ t).
Proof. intros s t H1 H2 H. apply in_app_iff in H. tauto. Qed.
Lemma free_enc : forall C t, enc C t -> ~ C k -> k <> chr "%" -> ~ hexdig k -> ~ In k t.
Proof.
  intros C t H HC Hp Hh. induction H as [|y t Hy _ IH|a b t Ha Hb _ IH]; [easy|intros [->|K]; tauto|].
  intros [K|[->|[->|K]]]; [congruence|tauto..].
Qed.
Lemma free_all : forall (P : N -> Prop) s, Forall P s -> ~ P k -> ~ In k s.
Proof. intros P s H Hk K. rewrite Forall_forall in H. now apply Hk, H. Qed.
Lemma free_seg : forall l, Forall g_seg l -> ~ c_pchar k -> k <> chr "%" -> ~ hexdig k -> k <> chr "/" -> ~ In k (List.concat l).
Proof.
  intros l H H1 H2 H3 H4. induction H as [|x l (t & -> & Ht) _ IH]; [easy|]. cbn [List.concat]. apply free_app; [|exact IH].
  intros [K|K]; [congruence|]. now apply (free_enc Ht) in K.
Qed.
Lemma free_scheme : forall v s, g_scheme v s -> ~ alpha k -> ~ digit k -> ~ among (bs "+-.") k -> ~ In k s.
Proof. intros v s [_ (x & t & -> & Hx & Ht)] H1 H2 H3 [->|K]; [tauto|]. now apply (free_all Ht) in K; [|tauto]. Qed.
Lemma free_host : forall h s, g_host ipv6_text h s -> ~ c_reg k -> ~ In k (bs "%[]:") -> ~ In k s.
Proof.
  intros h s H Hr Hd.
  assert (Hh : ~ hexdig k).
  { intros K. apply Hr. left. unfold hexdig in K. unfold c_unreserved, alpha, digit. lia. }
  assert (Hp : k <> chr "%") by (intros ->; apply Hd; vm_compute; tauto).
  assert (Hb : ~ In k (bs "[") /\ ~ In k (bs "]") /\ k <> chr ":").
  { repeat split; intros K; apply Hd; vm_compute in K |- *; intuition. }
  destruct Hb as (B1 & B2 & B3).
  assert (R : forall s, enc c_reg s -> ~ In k s) by (intros s' Hs; now apply (free_enc Hs)).
  destruct H as [s H _|a s H|a s H|h s H1 H2 H3 H4].
  - now apply R.
  - apply R. eapply ipv4_enc, H.
  - apply free_app; [exact B1|]. apply free_app; [|exact B2].
    assert (Dt : ~ In k (bs ".")) by (intros [<-|[]]; apply Hr; left; right; right; vm_compute; tauto).
    assert (Cl : ~ In k (bs ":")) by (intros [<-|[]]; now apply B3).
    assert (G : forall v s, group v s -> ~ In k s) by (intros v s' (K & _); now apply (free_all K)).
    assert (C : forall v s, groups_colon v s -> ~ In k s).
    { intros v s' K. induction K as [|v s' vs t K _ IH]; [easy|]. apply free_app; [eapply G, K|]. now apply free_app. }
    assert (L : forall v s, left_part v s -> ~ In k s).
    { intros v s' K. destruct K as [|vs t v s' K1 K2]; [easy|]. apply free_app; [eapply C, K1|eapply G, K2]. }
    assert (D : forall v s, octet v s -> ~ In k s).
    { intros v s' ((K & _) & _). apply (free_all K). intros Kd. apply Hr. left. right. now left. }
    assert (R6 : forall v s, right_part v s -> ~ In k s).
    { intros v s' K. destruct K as [vs t K|vs t us s' K1 K2]; [eapply L, K|]. apply free_app; [eapply C, K1|].
      destruct K2 as [a' b' s' t2 Ha Hb|a' b' c' d' s' H4].
      - apply free_app; [eapply G, Ha|]. apply free_app; [exact Cl|eapply G, Hb].
      - inv H4. repeat (apply free_app; [first [exact Dt|eapply D; eassumption]|]). eapply D; eassumption. }
    destruct H as [vs s H _|ls s rs t H1 H2 _]; [eapply R6, H|].
    apply free_app; [eapply L, H1|]. apply free_app; [|eapply R6, H2]. change (bs "::") with (bs ":" ++ bs ":"). now apply free_app.
  - apply free_app; [exact B1|]. apply free_app; [|exact B2]. repeat apply free_app.
    + intros [<-|[]]. apply Hr. left. left. unfold alpha. vm_compute. right. split; discriminate.
    + now apply (free_all H1).
    + intros [<-|[]]. apply Hr. left. right. right. vm_compute. tauto.
    + apply (free_all H3). intros [K|K]; congruence || tauto.
Qed.
Lemma free_authority : forall a s, g_authority ipv6_text a s -> ~ c_reg k -> ~ In k (bs "%[]:@") -> ~ In k s.
Proof.
  intros a s H Hr Hd. destruct H as [us su h sh p sp Hu Hh Hp].
  assert (Hx : ~ hexdig k).
  { intros K. apply Hr. left. unfold hexdig in K. unfold c_unreserved, alpha, digit. lia. }
  assert (Hpc : k <> chr "%") by (intros ->; apply Hd; vm_compute; tauto).
  assert (B : ~ In k (bs "@") /\ ~ In k (bs ":")) by (split; intros K; apply Hd; vm_compute in K |- *; intuition).
  destruct B as [B1 B2].
  apply free_app; [|apply free_app].
  - destruct Hu as [|u s (t & Ht & ->)]; [easy|]. apply free_app; [|exact B1].
    destruct Ht as [n Hn|n p' Hn Hp' _]; [now apply (free_enc Hn)|]. apply free_app; [now apply (free_enc Hn)|]. apply free_app; [exact B2|now apply (free_enc Hp')].
  - apply (free_host Hh Hr). intros K. apply Hd. vm_compute in K |- *. intuition.
  - destruct Hp as [|n s (t & (T1 & _) & ->)]; [easy|]. apply free_app; [exact B2|]. apply (free_all T1). intros K. apply Hr. left. right. now left.
Qed.
Lemma free_query : forall q s, g_params q s -> ~ c_query k -> k <> chr "%" -> ~ hexdig k -> ~ In k (bs "=&") -> ~ In k s.
Proof.
  intros q s H H1 H2 H3 H4.
  assert (P : forall kv s, g_param kv s -> ~ In k s).
  { intros kv s' K. destruct K as [a Ha|a v Ha Hv]; [now apply (free_enc Ha)|]. apply free_app; [now apply (free_enc Ha)|]. apply free_app; [|now apply (free_enc Hv)].
    intros [<-|[]]. apply H4. vm_compute. tauto. }
  induction H as [kv s K|kv s q t K _ IH]; [eapply P, K|]. apply free_app; [eapply P, K|]. apply free_app; [|exact IH].
  intros [<-|[]]. apply H4. vm_compute. tauto.
Qed.
End Free.

(** ** C94 *)
(** Scheme, hierarchical part, query and fragment by their delimiters (RFC 3986, appendix B): '#' first, then '?', then ':'. *)
Definition by_delimiters (t : bytes) : bytes * option bytes * option bytes * option bytes :=
  let '(a, f) := cut (chr "#") t in let '(b, q) := cut (chr "?") a in let '(s, h) := cut (chr ":") b in (s, h, q, f).
(** Authority and path of a hierarchical part by the delimiters: "//", then everything up to the next '/'. *)
Definition hier_by_delimiters (h : bytes) : option bytes * bytes :=
  match h with
  | a :: b :: r => if list_eq_dec N.eq_dec [a; b] (bs "//") then let '(au, p) := cut (chr "/") r in (Some au, match p with Some p => chr "/" :: p | None => [] end) else (None, h)
  | _ => (None, h)
  end.
Definition path_text (u : uri) : bytes := match u_hier u with Some h => show_path (hp_path h) | None => [] end.

Lemma delimiters_gen : forall sc sh (q : option bytes) (f : option bytes), 
  ~ In (chr ":") sc -> ~ In (chr "#") (sc ++ bs ":" ++ sh) -> ~ In (chr "?") (sc ++ bs ":" ++ sh) -> match q with Some t => ~ In (chr "#") t | None => True end ->
  by_delimiters (sc ++ bs ":" ++ sh ++ match q with Some t => bs "?" ++ t | None => [] end ++ match f with Some t => bs "#" ++ t | None => [] end) = (sc, Some sh, q, f).
Proof.
  intros sc sh q f H1 H2 H3 H4. unfold by_delimiters.
  set (qt := match q with Some t => bs "?" ++ t | None => [] end).
  assert (Hq : ~ In (chr "#") ((sc ++ bs ":" ++ sh) ++ qt)).
  { apply free_app; [exact H2|]. subst qt. destruct q; [|easy]. apply free_app; [|exact H4]. intros [K|[]]. discriminate. }
  assert (Ef : cut (chr "#") (sc ++ bs ":" ++ sh ++ qt ++ match f with Some t => bs "#" ++ t | None => [] end) = ((sc ++ bs ":" ++ sh) ++ qt, f)).
  { rewrite <- !app_assoc in *. destruct f as [t|].
    - replace (sc ++ bs ":" ++ sh ++ qt ++ bs "#" ++ t) with ((sc ++ bs ":" ++ sh ++ qt) ++ chr "#" :: t) by (now rewrite <- !app_assoc). now apply cut_some.
    - rewrite app_nil_r. now apply cut_none. }
  rewrite Ef. assert (Eq : cut (chr "?") ((sc ++ bs ":" ++ sh) ++ qt) = (sc ++ bs ":" ++ sh, q)).
  { subst qt. destruct q as [t|]; [|rewrite app_nil_r; now apply cut_none]. change (bs "?" ++ t) with (chr "?" :: t). now apply cut_some. }
  rewrite Eq. change (bs ":" ++ sh) with (chr ":" :: sh). now rewrite cut_some by exact H1.
Qed.

Lemma no_reg : forall k, b_reg k = false -> ~ c_reg k.
Proof. intros k H K. apply reg_iff in K. congruence. Qed.
Lemma no_pchar : forall k, b_pchar k = false -> ~ c_pchar k.
Proof. intros k H K. apply pchar_iff in K. congruence. Qed.
Lemma no_query : forall k, b_query k = false -> ~ c_query k.
Proof. intros k H K. apply query_iff in K. congruence. Qed.
Ltac notin := let K := fresh in intros K; vm_compute in K; repeat (destruct K as [K|K]; [discriminate K|]); exact K.
Ltac noclass := first [intros [?|[?|?]]; vm_compute in *; intuition congruence|intros [?|?]; vm_compute in *; intuition congruence|vm_compute; intuition congruence].
Lemma hash_hex : ~ hexdig 35. Proof. unfold hexdig. lia. Qed.
Lemma quest_hex : ~ hexdig 63. Proof. unfold hexdig. lia. Qed.

Lemma free_hier : forall k h s, k = 35%N \/ k = 63%N -> g_hier ipv6_text h s -> ~ In k s.
Proof.
  intros k h s Hk H.
  assert (C1 : ~ c_reg k) by (apply no_reg; destruct Hk; subst; reflexivity).
  assert (C2 : ~ c_pchar k) by (apply no_pchar; destruct Hk; subst; reflexivity).
  assert (C3 : ~ hexdig k) by (destruct Hk; subst; [exact hash_hex|exact quest_hex]).
  assert (C4 : k <> chr "%") by (destruct Hk; subst; discriminate). assert (C5 : k <> chr "/") by (destruct Hk; subst; discriminate).
  assert (S : forall l, Forall g_seg l -> ~ In k (List.concat l)) by (intros l Hl; now apply free_seg).
  destruct H as [a s l Ha Hl|p s Hp _].
  - apply free_app; [destruct Hk; subst; notin|]. apply free_app; [|now apply S]. apply (free_authority Ha C1). destruct Hk; subst; notin.
  - destruct Hp as [l Hl|s l Hs _ Hl]; [now apply S|]. apply free_app; [now apply (free_enc Hs)|now apply S].
Qed.

(** Scheme, query and fragment are always those given by the delimiters; so is the hierarchical part, and if it has an
    authority, this is the text between "//" and the next '/'. *)
Theorem C94_components_partial : forall v6_parse text u n, (forall s a, v6_parse s = inl a -> ipv6_text a s) ->
  uri_parse v6_parse text = Success u n ->
  exists s h q f, by_delimiters (firstn n text) = (s, Some h, q, f) /\
    u_scheme u = match s with [] => None | _ => Some s end /\
    match u_query u, q with Some ps, Some t => g_params ps t | None, None => True | _, _ => False end /\
    u_fragment u = f /\ (is_absolute u = true <-> ~ In (chr "#") (firstn n text)) /\
    match uri_authority u with
    | Some a => exists t, hier_by_delimiters h = (Some t, path_text u) /\ g_authority ipv6_text a t
    | None => h = path_text u
    end.
Proof.
  intros v6_parse text u n Ho H. apply (C43_prefix_is_uri_partial _ _ Ho) in H. destruct H as [_ H]. set (t := firstn n text) in *. clearbody t.
  destruct H as [c sc h sh q sq f sf Hc Hh Hq Hf].
  assert (Sq : exists q', sq = match q' with Some t => bs "?" ++ t | None => [] end /\ match q, q' with Some ps, Some t => g_params ps t | None, None => True | _, _ => False end).
  { destruct Hq as [|q s (t & Ht & ->)]; [now exists None|now exists (Some t)]. }
  destruct Sq as (q' & -> & Hq').
  assert (Sf : sf = match f with Some t => bs "#" ++ t | None => [] end).
  { destruct Hf as [|f s (t & [-> _] & ->)]; reflexivity. }
  subst sf.
  assert (Fs : forall k, In k (bs ":#?") -> ~ In k sc).
  { intros k Hk. destruct Hc as [|c s Hs]; [easy|]. eapply free_scheme; [exact Hs|..]; vm_compute in Hk; destruct Hk as [<-|[<-|[<-|[]]]]; unfold alpha, digit; try lia; notin. }
  assert (Fh : forall k, k = 35%N \/ k = 63%N -> ~ In k sh).
  { intros k Hk. destruct Hh as [|h s Hs]; [easy|]. now apply (free_hier Hk Hs). }
  assert (F1 : ~ In (chr "#") (sc ++ bs ":" ++ sh)).
  { apply free_app; [apply Fs; vm_compute; tauto|]. apply free_app; [notin|]. apply Fh. now left. }
  assert (F2 : ~ In (chr "?") (sc ++ bs ":" ++ sh)).
  { apply free_app; [apply Fs; vm_compute; tauto|]. apply free_app; [notin|]. apply Fh. now right. }
  assert (F3 : match q' with Some t => ~ In (chr "#") t | None => True end).
  { destruct q' as [t|]; [|exact I]. destruct q as [ps|]; [|contradiction]. eapply free_query; [exact Hq'|now apply no_query|discriminate|exact hash_hex|notin]. }
  exists sc, sh, q', f. split; [apply delimiters_gen; try assumption; apply Fs; vm_compute; tauto|].
  cbn [u_scheme u_query u_fragment u_hier]. split; [|split; [exact Hq'|split; [reflexivity|split]]].
  - destruct Hc as [|c s [-> (x & t & -> & _)]]; reflexivity.
  - unfold is_absolute. cbn [u_fragment]. rewrite !app_assoc. rewrite <- (app_assoc (sc ++ bs ":") sh). destruct f as [f|]; split; try discriminate; try reflexivity.
    + intros K. exfalso. apply K. apply in_app_iff. right. now left.
    + intros _. rewrite app_nil_r. rewrite <- !app_assoc. rewrite !app_assoc. apply free_app; [rewrite <- app_assoc; exact F1|]. destruct q'; [|easy]. apply free_app; [notin|exact F3].
  - unfold uri_authority, path_text. cbn [u_hier]. destruct Hh as [|h s Hs]; [reflexivity|]. destruct Hs as [a s l Ha Hl|p s Hp _]; cbn [hp_authority hp_path].
    + exists s. split; [|exact Ha]. change (bs "//" ++ s ++ List.concat l) with (chr "/" :: chr "/" :: (s ++ List.concat l)). unfold hier_by_delimiters.
      destruct (list_eq_dec N.eq_dec [chr "/"; chr "/"] (bs "//")) as [_|E]; [|exfalso; now apply E].
      assert (Sl : ~ In (chr "/") s) by (apply (free_authority Ha); [now apply no_reg|notin]).
      destruct Hl as [|x l (t & -> & _) _]; cbn [List.concat].
      * rewrite app_nil_r, cut_none by exact Sl. reflexivity.
      * change ((bs "/" ++ t) ++ List.concat l) with (chr "/" :: (t ++ List.concat l)). rewrite cut_some by exact Sl. reflexivity.
    + destruct Hp; reflexivity.
Qed.
(** Full statement: there is an authority whenever the hierarchical part starts with "//".  False: an authority with an empty
    host, as in file URIs, is read as the beginning of the path. *)
Theorem C94_authority_refuted : exists text u n, forall v6_parse, uri_parse v6_parse text = Success u n /\ n = length text /\
  (exists s h q f, by_delimiters text = (s, Some h, q, f) /\ hier_by_delimiters h = (Some [], bs "/etc/passwd")) /\
  uri_authority u = None /\ path_text u = bs "///etc/passwd".
Proof.
  exists (bs "file:///etc/passwd"). do 2 eexists. intros v6_parse. split; [vm_compute; reflexivity|]. split; [reflexivity|].
  split; [do 4 eexists; split; vm_compute; reflexivity|]. split; reflexivity.
Qed.
Example C94_example : exists u, uri_parse (fun _ => inr tt) (bs "http://u@h:8/a/b?x=1?&y#f?/") = Success u 27 /\
  by_delimiters (bs "http://u@h:8/a/b?x=1?&y#f?/") = (bs "http", Some (bs "//u@h:8/a/b"), Some (bs "x=1?&y"), Some (bs "f?/")) /\
  is_absolute u = false.
Proof. eexists. split; [vm_compute; reflexivity|]. split; vm_compute; reflexivity. Qed.
Print Assumptions C94_components_partial.
Print Assumptions C94_authority_refuted.
