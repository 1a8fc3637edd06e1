(** The randomised tests of hocon/src/parsers.rs, for every text that their generators can produce: the rest of C117. *)
From Verif Require Import UriGens PropsAD.
From Verif Require Import Base Core Comb Closure RepFacts LitFacts Hoare Runs Text Json JsonSpec JsonFacts Hocon HoconFacts HoconParse HoconSpec HoconComplete HoconDisplay.
Set Implicit Arguments.
Local Open Scope string_scope.
Local Open Scope nat_scope.
Local Open Scope list_scope.

(** (p - end()).parse(s).to_result() gives [v]. *)
Definition reads_whole {A} (p : parser N A) (s : list N) (v : A) : Prop :=
  parse (p_skip_right p (@p_end N)) s = Success v (length s).
Lemma reads_acc : forall A (p : parser N A) s v, acc p s [] v -> reads_whole p s v.
Proof. intros A p s v H. unfold reads_whole. apply PropsAD.acc_parse. now apply whole_acc. Qed.

(** A comment that the end of the text ends. *)
Lemma a_comment_end : forall t, Forall (fun y => ~ newline y) t -> acc comment_tail t [] t.
Proof.
  intros t Ht pre. unfold comment_tail, p_take_till0. rewrite input_at, app_nil_r, tt_loop_miss.
  - reflexivity.
  - intros y Hy. rewrite Forall_forall in Ht. specialize (Ht y Hy). unfold newline in Ht. destruct (N.eqb_spec y 13), (N.eqb_spec y 10); tauto.
Qed.
Lemma a_last_comment : forall h t, In h [bs "#"; bs "//"] -> Forall (fun y => ~ newline y) t -> acc comment (h ++ t) [] (h ++ t).
Proof.
  intros h t Hh Ht. unfold comment. apply a_collect with (v := ([], [(h, t)])).
  change (h ++ t) with ([] ++ (h ++ t)) at 1. eapply a_and.
  - apply a_hspace; [constructor|]. destruct Hh as [<-|[<-|[]]]; cbn; unfold is_ws; cbn; lits.
  - eapply a_many1 with (vs := [(h, t)]); [|eapply r_and1, r_comment_head; exact I|discriminate].
    rewrite <- (app_nil_r (h ++ t)). constructor; [|destruct Hh as [<-|[<-|[]]]; discriminate|constructor].
    eapply a_and; [|now apply a_comment_end]. rewrite app_nil_r. unfold comment_head. destruct Hh as [<-|[<-|[]]].
    + apply a_or2; [eapply r_attempt, r_collect, r_seqN; discriminate|eapply a_collect, a_elm_ref].
    + apply a_or1. eapply a_attempt, a_collect, a_seqN.
Qed.
Lemma g_comment : forall s, comment_gen s -> exists h t, s = h ++ t /\ In h [bs "#"; bs "//"] /\ Forall letter t.
Proof.
  intros s (h & Hh & t & (n & _ & _ & Ht) & ->). exists h, t. split; [reflexivity|]. split; [exact Hh|].
  eapply Forall_impl; [|exact Ht]. intros x Hx. unfold frequency in Hx. rewrite Exists_exists in Hx. destruct Hx as (g & Hg & Hx).
  repeat destruct Hg as [<-|Hg]; try contradiction; unfold choose, letter in *; cbn in Hx; lia.
Qed.
Lemma letters_line : forall t, Forall letter t -> Forall (fun y => ~ newline y) t.
Proof. intros t H. eapply Forall_impl; [|exact H]. intros y Hy [->| ->]; unfold letter in Hy; lia. Qed.
Lemma g_space : forall s, space_gen s -> ws s.
Proof.
  intros s (n & _ & _ & H). eapply Forall_impl; [|exact H]. intros x Hx. unfold is_ws. cbn in *. intuition congruence.
Qed.
Lemma g_element : forall s, path_element_gen s -> s <> [] /\ Forall path_letter s.
Proof.
  intros s (n & Hn & L & H). split; [unfold choose in Hn; destruct s; [cbn in L; lia|discriminate]|].
  eapply Forall_impl; [|exact H]. intros x Hx. unfold frequency in Hx. rewrite Exists_exists in Hx. destruct Hx as (g & Hg & Hx).
  repeat destruct Hg as [<-|Hg]; try contradiction; unfold g_pure, choose, path_letter, letter in *; cbn in *; subst; auto; lia.
Qed.
Lemma g_hocon_path : forall s, hocon_path_gen s -> g_path s.
Proof.
  intros s (n & Hn & l & (L & H) & ->). assert (Hne : l <> []) by (unfold choose in Hn; destruct l; [cbn in L; lia|discriminate]). clear n Hn L.
  induction H as [|c l Hc H IH]; [congruence|]. apply g_element in Hc. destruct Hc as [C1 C2]. destruct l as [|d l].
  - now constructor.
  - change (join (bs ".") (c :: d :: l)) with (c ++ bs "." ++ join (bs ".") (d :: l)). apply gp_more; auto. apply IH. discriminate.
Qed.
Lemma a_method : forall m rest, include_method_gen m -> acc include_method m rest m.
Proof.
  intros m rest H. unfold include_method. apply a_map_res with (v := m); [|destruct H as [<-|[<-|[]]]; reflexivity]. destruct H as [<-|[<-|[]]].
  - eapply a_collect, a_or1, a_seqN.
  - eapply a_collect, a_or2; [apply r_seqN; discriminate|apply a_seqN].
Qed.

Theorem C117_hocon : forall (D : Type) (show : D -> list N) s,
  (comment_gen s -> reads_whole comment s s) /\
  (space_gen s -> reads_whole hspace s s) /\
  (comment_space_gen s -> reads_whole space_or_comment s tt) /\
  (include_method_gen s -> reads_whole include_method s s) /\
  (include_config_value_gen s -> exists v, reads_whole (@include_cv D) s v /\ text show v = s) /\
  (hocon_path_gen s -> reads_whole path_p s s).
Proof.
  intros D show s. repeat split.
  - intros H. apply g_comment in H. destruct H as (h & t & -> & Hh & Ht). apply reads_acc, a_last_comment; [exact Hh|now apply letters_line].
  - intros H. apply reads_acc, a_hspace; [now apply g_space|exact I].
  - revert s. apply (@g_frequency _ _ (fun s => reads_whole space_or_comment s tt)). repeat apply Forall_cons; [..|apply Forall_nil]; intros s H.
    + apply g_comment in H. destruct H as (h & t & -> & Hh & Ht). apply reads_acc. unfold space_or_comment. eapply a_discard, a_or1, a_attempt, a_last_comment; [exact Hh|now apply letters_line].
    + apply reads_acc, skips_ws; [now apply g_space|exact I].
  - intros H. apply reads_acc. now apply a_method.
  - intros (m & Hm & ->). exists (CIncl m ([34%N] ++ bs "abc" ++ [34%N])). split; [|cbn; now rewrite <- ?app_assoc].
    apply reads_acc. unfold include_cv. eapply a_map_eq with (v := (m, bs "abc")); [|reflexivity].
    replace (bs "include " ++ m ++ bs "(""" ++ bs "abc" ++ bs """)") with (((bs "include" ++ [32%N]) ++ m) ++ (bs "(" ++ [34%N]) ++ bs "abc" ++ ([34%N] ++ bs ")"))
      by (now rewrite <- !app_assoc).
    eapply a_and; [eapply a_skip_left; [eapply a_skip_left; [apply a_seqN|apply a_elm]|now apply a_method]|].
    eapply a_surround; [apply a_seqN| |apply a_seqN]. apply a_path_text; [|cbn; unfold path_letter, letter; cbn; split; [|discriminate]].
    + constructor; [discriminate|]. repeat apply Forall_cons; [left; unfold letter; cbn; lia..|apply Forall_nil].
    + intros [K|K]; [lia|]. intuition discriminate.
  - intros H. apply reads_acc. apply a_path_text; [now apply g_hocon_path|exact I].
Qed.
Example C117_hocon_case : comment_gen (bs "//aB") /\ space_gen [32; 10]%N /\ comment_space_gen (bs "#") /\ include_method_gen (bs "url") /\
  include_config_value_gen (bs "include file(""abc"")") /\ hocon_path_gen (bs "a-b.C_").
Proof.
  split; [|split; [|split; [|split; [|split]]]].
  - exists (bs "//"). split; [gin|]. exists (bs "aB"). split; [|reflexivity]. exists 2%N. split; gin.
  - exists 2%N. split; gin.
  - apply Exists_cons_hd. exists (bs "#"). split; [gin|]. exists []. split; [|reflexivity]. exists 0%N. split; [gin|]. split; [reflexivity|constructor].
  - unfold include_method_gen. gin.
  - exists (bs "file"). split; [unfold include_method_gen; gin|reflexivity].
  - exists 2%N. split; [gin|]. exists [bs "a-b"; bs "C_"]. split; [|reflexivity]. split; [reflexivity|].
    repeat apply Forall_cons; [exists 3%N; split; gin|exists 2%N; split; gin|apply Forall_nil].
Qed.
Print Assumptions C117_hocon.
