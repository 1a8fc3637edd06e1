(** C108: the hocon parsers read nothing but HOCON texts. *)
From Verif Require Import PropsH.
From Verif Require Import Base Core Comb Closure RepFacts LitFacts Hoare Runs Weak Reads Text Json JsonSpec JsonFacts Hocon HoconFacts HoconParse HoconResolve HoconSpec HoconText HoconSound.
Set Implicit Arguments.
Local Open Scope string_scope.
Local Open Scope nat_scope.
Local Open Scope list_scope.

(** ** C108: what is read spells what is returned *)
(** A successful parse consumes the whole text, and the values are those of a reading of the text in the grammar of HoconText.v. *)
Theorem C108_sound : forall D (dec : list N -> option D) t vs n, hocon_p dec t 0 = Success vs n -> n = length t /\ s_doc dec t vs.
Proof. intros D dec t vs n. apply hocon_sound. Qed.
(** So is every text that is loaded. *)
Theorem C108_loaded : forall D (dec : list N -> option D) env files fuel t c, parse_from_string dec env files fuel t = ROk (Some c) -> exists vs, s_doc dec t vs.
Proof.
  intros D dec env files fuel t c E. unfold parse_from_string, parse_from_string_with in E.
  destruct (hocon_p dec t 0) as [vs n|e b| |] eqn:Ep; try discriminate; [|destruct (error_input e); discriminate].
  exists vs. now apply C108_sound in Ep.
Qed.
(** The text ends in a comment without a line end. *)
Definition read_text : list N := bs "a { b = [1.5, 2 ms,], c : ${?x.y} d [null] } // end".
Example C108_case : exists vs, hocon_p Some read_text 0 = Success vs (length read_text) /\ s_doc Some read_text vs /\ length read_text = 51 /\
  vs = [CObj [(bs "a", CObj [(bs "b", CArr [CNum (bs "1.5"); CDur (bs "2") UMillis]); (bs "c", CRef None (bs "x.y") true); (bs "d", CArr [CNull])])]].
Proof.
  eexists. assert (E : hocon_p Some read_text 0 = Success [CObj [(bs "a", CObj [(bs "b", CArr [CNum (bs "1.5"); CDur (bs "2") UMillis]); (bs "c", CRef None (bs "x.y") true); (bs "d", CArr [CNull])])]] (length read_text)) by (vm_compute; reflexivity).
  split; [exact E|]. split; [|split; reflexivity]. now apply C108_sound in E.
Qed.
Example C108_load_case : exists c, parse_from_string Some (fun _ => None) (fun _ => None) 9 (bs "a { b = [1.5, 2 ms,], c : null d [null] } // end") = ROk (Some c).
Proof. eexists. vm_compute. reflexivity. Qed.
Print Assumptions C108_sound.
Print Assumptions C108_loaded.

(** ** Brackets match *)
(** The number of open square brackets after a text, if none was closed that was not open. *)
Fixpoint depth (n : nat) (s : list N) : option nat :=
  match s with
  | [] => Some n
  | x :: t => if (x =? chr "[")%N then depth (S n) t else if (x =? chr "]")%N then match n with 0 => None | S m => depth m t end else depth n t
  end.
Definition no_comment (s : list N) : Prop := ~ In (chr "#") s /\ forall a b, s <> a ++ bs "//" ++ b.
Definition neutral (s : list N) : Prop := forall n, depth n s = Some n.

Lemma no_comment_app : forall a b, no_comment (a ++ b) -> no_comment a /\ no_comment b.
Proof.
  intros a b [H1 H2]. split; split.
  - intros H. apply H1, in_or_app. now left.
  - intros x y ->. apply (H2 x (y ++ b)). now rewrite <- !app_assoc.
  - intros H. apply H1, in_or_app. now right.
  - intros x y ->. apply (H2 (a ++ x) y). now rewrite <- !app_assoc.
Qed.
Lemma depth_app : forall s t n m, depth n s = Some m -> depth n (s ++ t) = depth m t.
Proof.
  induction s as [|x s IH]; intros t n m H; cbn in *; [now inv H|]. destruct (_ =? _)%N; [now apply IH|]. destruct (_ =? _)%N; [|now apply IH].
  destruct n; [discriminate|now apply IH].
Qed.
Lemma neutral_app : forall s t, neutral s -> neutral t -> neutral (s ++ t).
Proof. intros s t H1 H2 n. rewrite (depth_app _ _ _ (H1 n)). apply H2. Qed.
Lemma neutral_free : forall s, Forall (fun x => x <> chr "[" /\ x <> chr "]") s -> neutral s.
Proof.
  intros s H n. revert n. induction H as [|x s [H1 H2] _ IH]; intros n; [reflexivity|]. cbn [depth].
  destruct (N.eqb_spec x (chr "[")); [congruence|]. destruct (N.eqb_spec x (chr "]")); [congruence|]. apply IH.
Qed.
Lemma neutral_const : forall s, forallb (fun x => negb ((x =? chr "[")%N || (x =? chr "]")%N)) s = true -> neutral s.
Proof.
  intros s H. apply neutral_free. rewrite forallb_forall in H. apply Forall_forall. intros x Hx. apply H in Hx.
  destruct (N.eqb_spec x (chr "[")), (N.eqb_spec x (chr "]")); try discriminate. now split.
Qed.
Lemma neutral_nil : neutral []. Proof. intros n. reflexivity. Qed.
Lemma neutral_lay : forall g r, lay g r -> no_comment g -> neutral g.
Proof.
  intros g r H. induction H as [r|x g r Hx _ IH|c g r (h & t & x & -> & Hh & _) _ _|h t Hh _]; intros Hc.
  - exact neutral_nil.
  - change (x :: g) with ([x] ++ g) in *. apply neutral_app; [|apply IH; now apply no_comment_app in Hc].
    apply neutral_const. cbn in Hx. destruct Hx as [<-|[<-|[<-|[<-|[]]]]]; reflexivity.
  - exfalso. destruct Hc as [H1 H2]. destruct Hh as [->| ->]; [apply H1; cbn; now left|]. apply (H2 [] ((t ++ [x]) ++ g)). reflexivity.
  - exfalso. destruct Hc as [H1 H2]. destruct Hh as [->| ->]; [apply H1; cbn; now left|]. now apply (H2 [] t).
Qed.
Lemma hexdig_free : forall x, hexdig x -> x <> chr "[" /\ x <> chr "]".
Proof. intros x H. unfold hexdig in H. change (chr "[") with 91%N. change (chr "]") with 93%N. lia. Qed.
Lemma digit_free : forall x, digit x -> x <> chr "[" /\ x <> chr "]".
Proof. intros x H. unfold digit in H. change (chr "[") with 91%N. change (chr "]") with 93%N. lia. Qed.
Lemma neutral_digits : forall s, Forall digit s -> neutral s.
Proof. intros s H. apply neutral_free. eapply Forall_impl; [|exact H]. exact digit_free. Qed.
Lemma neutral_body : forall s v, s_body s v -> neutral s.
Proof.
  intros s v (is & _ & H & -> & _). apply neutral_free. clear v. induction H as [|i is Hi _ IH]; [constructor|]. cbn [flat_map]. apply Forall_app. split; [|exact IH].
  destruct i as [x|c|h]; cbn [item_text].
  - constructor; [|constructor]. cbn in Hi. unfold stop_char in Hi. split; intros ->; apply Hi; cbn; tauto.
  - constructor; [split; discriminate|]. constructor; [|constructor]. cbn in Hi. split; intros ->; intuition discriminate.
  - constructor; [split; discriminate|]. constructor; [split; discriminate|]. destruct Hi as [Hi _]. eapply Forall_impl; [|exact Hi]. exact hexdig_free.
Qed.
Lemma neutral_path : forall p, g_path p -> neutral p.
Proof.
  assert (K : forall c, Forall path_letter c -> neutral c).
  { intros c H. apply neutral_free. eapply Forall_impl; [|exact H]. intros x [Hx|Hx].
    - unfold letter in Hx. change (chr "[") with 91%N. change (chr "]") with 93%N. lia.
    - cbn in Hx. destruct Hx as [<-|[<-|[]]]; split; discriminate. }
  intros p H. induction H as [c _ H|c p _ H _ IH]; [now apply K|]. apply neutral_app; [now apply K|]. apply neutral_app; [now apply neutral_const|exact IH].
Qed.
Lemma neutral_spath : forall p, s_path p -> neutral p.
Proof. intros p [H|(q & -> & H)]; [now apply neutral_path|]. apply neutral_app; [now apply neutral_path|now apply neutral_const]. Qed.
Lemma neutral_maybe : forall (P : list N -> Prop) s, maybe P s -> (P s -> neutral s) -> neutral s.
Proof. intros P s [->|H] K; [exact neutral_nil|auto]. Qed.
Lemma neutral_num : forall D (dec : list N -> option D) s d, s_num dec s d -> neutral s.
Proof.
  intros D dec s d (m & n & -> & Hm & (i & f & e & -> & Hi & Hf & He & _) & _). repeat apply neutral_app.
  - eapply neutral_maybe; [exact Hm|]. intros <-. now apply neutral_const.
  - destruct Hi as [->|(x & t & -> & Hx & Ht)]; [now apply neutral_const|]. apply neutral_digits. constructor; [unfold digit; lia|exact Ht].
  - eapply neutral_maybe; [exact Hf|]. intros (t & -> & Ht & _). apply neutral_app; [now apply neutral_const|now apply neutral_digits].
  - eapply neutral_maybe; [exact He|]. intros (x & sg & t & -> & Hx & Hs & Ht & _). repeat apply neutral_app; [| |now apply neutral_digits].
    + destruct Hx as [->| ->]; now apply neutral_const.
    + eapply neutral_maybe; [exact Hs|]. intros [->| ->]; now apply neutral_const.
Qed.
Lemma neutral_unit : forall w u, s_unit w u -> neutral w.
Proof. intros w u H. unfold s_unit in H. apply neutral_const. repeat (destruct H as [H|H]; [inv H; reflexivity|]). contradiction. Qed.
Ltac nc H := repeat match type of H with no_comment (_ ++ _) => let K := fresh "C" in apply no_comment_app in H; destruct H as [K H] end.
Ltac neu := repeat first [apply neutral_app | eapply neutral_lay; eassumption | now apply neutral_const].
Lemma neutral_str : forall s r v, s_str s r v -> no_comment s -> neutral s.
Proof.
  intros s r v [s' r' v' H|q a b s' c d r' v' Hq Ha Hb H Hc Hd] C; [eapply neutral_body; eassumption|]. nc C.
  neu; try (eapply neutral_body; eassumption); destruct Hq as [->| ->]; now apply neutral_const.
Qed.
Lemma neutral_key : forall s r k, s_key s r k -> no_comment s -> neutral s.
Proof. intros s r k [a s' b r' k' Ha H Hb] C. nc C. neu. destruct H as [[H _]|H]; [now apply neutral_spath|eapply neutral_str; eassumption]. Qed.
Lemma neutral_comma : forall s r, s_comma s r -> no_comment s -> neutral s.
Proof. intros s r [a b r' Ha Hb] C. nc C. neu. Qed.
Lemma neutral_ref : forall s r p o, s_ref s r p o -> no_comment s -> neutral s.
Proof. intros s r p o [a b o' p' c d r' Ha Hb Hp Hc Hd] C. nc C. neu; [destruct o'; now apply neutral_const|now apply neutral_spath]. Qed.
Lemma neutral_enum : forall D s r (vs : list (cv D)), s_enum s r vs -> no_comment s -> neutral s.
Proof.
  intros D s r vs H. induction H as [r|s v t r vs Hs _ IH|s p o t r vs Hs _ IH]; intros C; [exact neutral_nil| |]; nc C; (apply neutral_app; [|now apply IH]).
  - eapply neutral_str; eassumption.
  - eapply neutral_ref; eassumption.
Qed.
Lemma neutral_bracket : forall s, neutral s -> neutral (bs "[" ++ s ++ bs "]").
Proof. intros s H n. change (depth n (bs "[" ++ s ++ bs "]")) with (depth (S n) (s ++ bs "]")). rewrite (depth_app _ _ _ (H (S n))). reflexivity. Qed.
Lemma neutral_values : forall D (dec : list N -> option D),
  (forall s r v, s_val dec s r v -> no_comment s -> neutral s) /\ (forall s r v, s_block dec s r v -> no_comment s -> neutral s) /\
  (forall s r vs, s_elems dec s r vs -> no_comment s -> neutral s) /\ (forall s r ps, s_members dec s r ps -> no_comment s -> neutral s) /\
  (forall s r k v, s_member dec s r k v -> no_comment s -> neutral s).
Proof.
  intros D dec. apply s_ind5; intros;
    repeat match goal with C : no_comment (_ ++ _) |- _ => let K := fresh "C" in apply no_comment_app in C; destruct C as [K C] end;
    try exact neutral_nil; try (now apply neutral_const); try (now eauto using neutral_num, neutral_str, neutral_ref, neutral_enum).
  - neu. auto.
  - neu; [eapply neutral_num; eassumption|eapply neutral_unit; eassumption].
  - apply neutral_app; [neu|]. replace (bs "[" ++ b ++ s ++ c ++ bs "]" ++ d) with ((bs "[" ++ (b ++ s ++ c) ++ bs "]") ++ d) by now rewrite <- !app_assoc.
    apply neutral_app; [apply neutral_bracket; neu; auto|neu].
  - neu. auto.
  - neu; [auto|eapply neutral_comma; eassumption].
  - neu; [auto|eapply neutral_comma; eassumption|auto].
  - neu; [auto|eapply neutral_comma; eassumption].
  - neu; [auto| |auto]. destruct o as [->|H']; [exact neutral_nil|eapply neutral_comma; eassumption].
  - neu; [eapply neutral_key; eassumption| |auto]. destruct o as [->| ->]; now apply neutral_const.
  - neu; [eapply neutral_key; eassumption|auto].
Qed.
(** A text without comments is only read when its square brackets match, those within strings included. *)
Theorem C108_brackets : forall D (dec : list N -> option D) t vs n, hocon_p dec t 0 = Success vs n -> no_comment t -> depth 0 t = Some 0.
Proof.
  intros D dec t vs n E C. apply C108_sound in E. destruct E as [_ E]. apply (fun H : neutral t => H 0). destruct (neutral_values dec) as (_ & Hb & _ & _ & Hm).
  destruct E as [a t ps m Ha Ht _ _|a t vs Ha Ht _|a t vs Ha Ht]; apply no_comment_app in C; destruct C as [C1 C2]; (apply neutral_app; [eapply neutral_lay; eassumption|]).
  - clear - Ht C2 Hm. induction Ht as [|s t k v ps H _ IH]; [exact neutral_nil|]. nc C2. apply neutral_app; [eapply Hm; eassumption|auto].
  - clear - Ht C2. induction Ht as [|m p t vs H1 H2 _ IH]; [exact neutral_nil|]. nc C2. neu; [destruct H1 as [->| ->]; now apply neutral_const|now apply neutral_spath|auto].
  - clear - Ht C2 Hb. induction Ht as [|s t v vs H _ IH]; [exact neutral_nil|]. nc C2. apply neutral_app; [eapply Hb; eassumption|auto].
Qed.
(** A bracket too many, even in a string, is an error; in a comment it is not. *)
Example C108_brackets_case :
  let ok t := match hocon_p Some t 0 with Success _ _ => true | _ => false end in
  ok (bs "a = [[1], [2, 3]]") = true /\ no_comment (bs "a = [[1], [2, 3]]") /\ ok (bs "a = [[1]") = false /\
  ok (bs "a = " ++ [34%N] ++ bs "x[0" ++ [34%N]) = false /\ ok (bs "a = [1] # [") = true.
Proof.
  split; [vm_compute; reflexivity|]. split; [|repeat split; vm_compute; reflexivity]. split.
  - cbn. intros H. repeat (destruct H as [H|H]; [discriminate|]). contradiction.
  - intros a b E. assert (H : In 47%N (bs "a = [[1], [2, 3]]")) by (rewrite E; apply in_or_app; right; now left).
    cbn in H. repeat (destruct H as [H|H]; [discriminate|]). contradiction.
Qed.
Print Assumptions C108_brackets.
