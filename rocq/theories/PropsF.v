(** C47, C48, C59, C60: the example JSON parsers. *)
From Verif Require Import Base Core Comb Closure RepFacts LitFacts Hoare Runs Text Agree Json JsonSpec JsonFacts.
Set Implicit Arguments.
Local Open Scope string_scope.
Local Open Scope nat_scope.
Local Open Scope list_scope.

(** RFC 8259 texts are texts of the lenient grammar. *)
Lemma strict_string : forall utf8 v s, g_string true utf8 v s -> g_string false utf8 v s.
Proof.
  intros utf8 v s (is & H & E). exists is. split; [|exact E]. eapply Forall_impl; [|exact H].
  intros [x|c|h]; cbn; tauto.
Qed.
Lemma strict_lenient : forall F (f64_parse : list N -> F + unit) utf8,
  (forall v s, jval f64_parse true utf8 v s -> jval f64_parse false utf8 v s) /\
  (forall vs s, jelems f64_parse true utf8 vs s -> jelems f64_parse false utf8 vs s) /\
  (forall ms s, jmembers f64_parse true utf8 ms s -> jmembers f64_parse false utf8 ms s).
Proof.
  intros F f utf8. apply (@jval_ind3 F f true utf8 (fun v s _ => jval f false utf8 v s) (fun v s _ => jelems f false utf8 v s) (fun v s _ => jmembers f false utf8 v s));
    intros; try (now constructor).
  - apply j_str. now apply strict_string.
  - apply j_arr; [assumption|]. match goal with H : trailing true _ |- _ => destruct H as [H|[H _]]; [now left|discriminate] end.
  - apply j_obj; [assumption|]. match goal with H : trailing true _ |- _ => destruct H as [H|[H _]]; [now left|discriminate] end.
  - apply jm_one; try assumption. now apply strict_string.
  - apply jm_more; try assumption. now apply strict_string.
Qed.

(** ** C47 *)
(** Every RFC 8259 document is accepted whole, with the value it spells. *)
Theorem C47_documents_accepted : forall F (f64_parse : list N -> F + unit) utf8 v s,
  jdoc f64_parse true utf8 v s -> parse (json_p f64_parse utf8) s = Success v (length s).
Proof.
  intros F f utf8 v s (a & t & b & E & Ha & Hv & Hb). apply json_complete. exists a, t, b. repeat split; try assumption.
  now apply strict_lenient.
Qed.

(** A printer: [num] prints a number, [w] is the white space written at every place where white space is allowed. *)
Definition hexchar (x : N) : N := if (x <? 10)%N then (48 + x)%N else (87 + x)%N.
Definition show_char (x : N) : list N :=
  if (x =? 34)%N || (x =? 92)%N then [92%N; x]
  else if (x <? 32)%N then [92; 117; 48; 48]%N ++ [hexchar (x / 16); hexchar (x mod 16)]
  else [x].
Definition show_string (s : list N) : list N := [34%N] ++ flat_map show_char s ++ [34%N].
Section Show.
Variable F : Type.
Variable num : F -> list N.
Variable w : list N.
Fixpoint join_comma (l : list (list N)) : list N :=
  match l with
  | [] => w
  | [s] => w ++ s ++ w
  | s :: l' => w ++ s ++ w ++ bs "," ++ join_comma l'
  end.
Fixpoint show (v : json F) : list N :=
  match v with
  | JNull _ => bs "null"
  | JBool _ true => bs "true"
  | JBool _ false => bs "false"
  | JStr _ s => show_string s
  | JNum x => num x
  | JArray l => bs "[" ++ join_comma (map show l) ++ bs "]"
  | JObject m => bs "{" ++ join_comma (map (fun kv => show_string (fst kv) ++ w ++ bs ":" ++ w ++ show (snd kv)) m) ++ bs "}"
  end.
(** The values of the Rust type: strings are UTF-8 (as bytes), the keys of a HashMap are distinct. *)
Fixpoint good (utf8 : bool) (v : json F) : Prop :=
  match v with
  | JStr _ s => utf8 = true -> utf8_valid s = true
  | JArray l => fold_right (fun x P => good utf8 x /\ P) True l
  | JObject m => NoDup (map fst m) /\ fold_right (fun kv P => (utf8 = true -> utf8_valid (fst kv) = true) /\ good utf8 (snd kv) /\ P) True m
  | _ => True
  end.
End Show.

Definition item_of (x : N) : sitem :=
  if (x =? 34)%N || (x =? 92)%N then SEsc x
  else if (x <? 32)%N then SUni [48; 48; hexchar (x / 16); hexchar (x mod 16)]%N
  else SRaw x.
Lemma small_cases : forall x, (x < 32)%N -> In x (map N.of_nat (seq 0 32)).
Proof. intros x H. apply in_map_iff. exists (N.to_nat x). split; [apply N2Nat.id|]. apply in_seq. lia. Qed.
Lemma item_of_text : forall x, item_text (item_of x) = show_char x.
Proof. intros x. unfold item_of, show_char. destruct (_ || _); [reflexivity|]. now destruct (x <? 32)%N. Qed.
Lemma item_of_ok : forall x, item_ok true (item_of x).
Proof.
  intros x. unfold item_of. destruct (N.eqb_spec x 34) as [->|H1]; [cbn; tauto|]. destruct (N.eqb_spec x 92) as [->|H2]; [cbn; tauto|].
  cbn [orb]. destruct (N.ltb_spec x 32) as [H3|H3].
  - split; [|reflexivity]. assert (G : forallb (fun x => forallb is_ascii_hex_digit [48; 48; hexchar (x / 16); hexchar (x mod 16)]%N) (map N.of_nat (seq 0 32)) = true) by (vm_compute; reflexivity).
    rewrite forallb_forall in G. specialize (G x (small_cases H3)). rewrite forallb_forall in G.
    apply Forall_forall. intros y Hy. apply hexdig_iff. now apply G.
  - cbn. repeat split; try assumption. intros _. exact H3.
Qed.
Lemma items_of_value : forall utf8 s, items_value (enc_of utf8) (map item_of s) = s.
Proof.
  intros utf8 s. induction s as [|x s IH]; [reflexivity|]. cbn [map]. unfold item_of at 1.
  destruct (N.eqb_spec x 34) as [->|H1]; [cbn [orb items_value]; now rewrite IH|].
  destruct (N.eqb_spec x 92) as [->|H2]; [cbn [orb items_value]; now rewrite IH|].
  cbn [orb]. destruct (N.ltb_spec x 32) as [H3|H3]; [|cbn [items_value]; now rewrite IH].
  assert (G : forallb (fun x => hex_value [48; 48; hexchar (x / 16); hexchar (x mod 16)] =? x)%N (map N.of_nat (seq 0 32)) = true) by (vm_compute; reflexivity).
  rewrite forallb_forall in G. specialize (G x (small_cases H3)). apply N.eqb_eq in G. cbn [items_value]. cbv zeta. rewrite G.
  destruct (N.leb_spec 55296 x); [lia|]. cbn [andb]. destruct (N.leb_spec 56320 x); [lia|]. cbn [andb]. rewrite IH.
  unfold enc_of. destruct utf8; [|reflexivity]. unfold utf8_encode. destruct (N.ltb_spec x 128); [reflexivity|lia].
Qed.
Lemma hexchar_ascii : forall x, (x < 32)%N -> (hexchar (x / 16) < 128 /\ hexchar (x mod 16) < 128)%N.
Proof.
  intros x H. unfold hexchar. pose proof (N.mod_lt x 16 ltac:(lia)) as M. assert (x / 16 < 2)%N as D by (apply N.div_lt_upper_bound; lia).
  split; [destruct (N.ltb_spec (x / 16) 10)|destruct (N.ltb_spec (x mod 16) 10)]; lia.
Qed.
Lemma show_valid : forall s a, utf8_valid (a ++ s) = true -> utf8_valid (a ++ flat_map item_text (map item_of s)) = true.
Proof.
  induction s as [|x s IH]; intros a H; [exact H|]. cbn [map flat_map]. unfold item_of at 1.
  assert (A : forall l b, ascii l -> utf8_valid (l ++ b) = utf8_valid b).
  { intros l b Hl. apply utf8_valid_app. apply ascii_utf8 in Hl. unfold from_utf8 in Hl. now destruct (utf8_valid l). }
  assert (S : (x < 128)%N -> forall t, ascii t -> utf8_valid (a ++ (92%N :: t) ++ flat_map item_text (map item_of s)) = true).
  { intros Hx t Ht. cbn [app]. rewrite utf8_valid_split by reflexivity. rewrite utf8_valid_split in H by exact Hx.
    apply andb_true_iff in H. destruct H as [-> H]. cbn [andb]. rewrite A by exact Ht. now apply (IH []). }
  destruct (N.eqb_spec x 34) as [->|H1]; [apply (S eq_refl [34%N]); constructor; [reflexivity|constructor]|].
  destruct (N.eqb_spec x 92) as [->|H2]; [apply (S eq_refl [92%N]); constructor; [reflexivity|constructor]|].
  cbn [orb]. destruct (N.ltb_spec x 32) as [H3|H3].
  - cbn [item_text]. apply (S ltac:(lia) (117 :: [48; 48; hexchar (x / 16); hexchar (x mod 16)])%N).
    destruct (hexchar_ascii H3). repeat (constructor; [assumption || reflexivity|]). constructor.
  - cbn [item_text]. rewrite app_assoc. apply IH. rewrite <- app_assoc. exact H.
Qed.
Lemma show_string_ok : forall utf8 s, (utf8 = true -> utf8_valid s = true) -> g_string true utf8 s (show_string s).
Proof.
  intros utf8 s H. exists (map item_of s). repeat split.
  - apply Forall_forall. intros i Hi. apply in_map_iff in Hi. destruct Hi as (x & <- & _). apply item_of_ok.
  - unfold show_string. do 2 f_equal. rewrite !flat_map_concat_map, map_map. f_equal. apply map_ext. intros x. now rewrite item_of_text.
  - symmetry. apply items_of_value.
  - intros Hu. apply (show_valid s []). now apply H.
Qed.

Lemma hm_set_new : forall V (m : list (list N * V)) k v, ~ In k (map fst m) -> hm_set m k v = m ++ [(k, v)].
Proof.
  intros V m k v. induction m as [|[a b] m IH]; intros H; [reflexivity|]. cbn in *. destruct (list_eq_dec N.eq_dec k a) as [->|]; [tauto|].
  rewrite IH by tauto. reflexivity.
Qed.
Lemma hm_collect_nodup : forall V (m : list (list N * V)), NoDup (map fst m) -> hm_collect m = m.
Proof.
  intros V m H. unfold hm_collect.
  assert (G : forall m a : list (list N * V), NoDup (map fst (a ++ m)) -> fold_left (fun m kv => hm_set m (fst kv) (snd kv)) m a = a ++ m).
  { clear. intros m. induction m as [|[k v] m IH]; intros a H; [now rewrite app_nil_r|]. cbn [fold_left fst snd].
    rewrite hm_set_new.
    - rewrite IH; [now rewrite <- app_assoc|]. now rewrite <- app_assoc.
    - rewrite map_app in H. cbn in H. apply NoDup_remove_2 in H. intros K. apply H, in_or_app. now left. }
  now apply (G m []).
Qed.
Section ShowOk.
Variable F : Type.
Variable f64_parse : list N -> F + unit.
Variable utf8 : bool.
Variable num : F -> list N.
Variable w : list N.
Hypothesis num_ok : forall x, g_number (num x) /\ f64_parse (num x) = inl x.
Hypothesis w_ok : ws w.
(** Induction over nested values. *)
Lemma json_rect2 : forall P : json F -> Prop, P (JNull F) -> (forall b, P (JBool F b)) -> (forall s, P (JStr F s)) -> (forall x, P (JNum x)) ->
  (forall l, Forall P l -> P (JArray l)) -> (forall m, Forall (fun kv => P (snd kv)) m -> P (JObject m)) -> forall v, P v.
Proof.
  intros P H1 H2 H3 H4 H5 H6. fix IH 1. intros [| b | s | x | l | m].
  - apply H1. - apply H2. - apply H3. - apply H4.
  - apply H5. induction l as [|v l IHl]; constructor; [apply IH|exact IHl].
  - apply H6. induction m as [|[k v] m IHm]; constructor; [apply IH|exact IHm].
Qed.
Lemma show_ok : forall v, good utf8 v -> jval f64_parse true utf8 v (show num w v).
Proof.
  induction v as [|b|s|x|l IH|m IH] using json_rect2; intros G; cbn [show].
  - constructor.
  - destruct b; constructor.
  - constructor. now apply show_string_ok.
  - destruct (num_ok x). now constructor.
  - destruct l as [|v l]; [now apply j_arr0|]. change (bs "[" ++ join_comma w (map (show num w) (v :: l)) ++ bs "]") with
      (bs "[" ++ join_comma w (map (show num w) (v :: l)) ++ [] ++ bs "]"). apply j_arr; [|now left].
    cbn [good] in G. revert v IH G. induction l as [|v' l IHl]; intros v IH G; cbn [fold_right] in G; inv IH.
    + apply je_one; [exact w_ok|tauto|exact w_ok].
    + change (join_comma w (map (show num w) (v :: v' :: l))) with (w ++ show num w v ++ w ++ bs "," ++ join_comma w (map (show num w) (v' :: l))).
      apply je_more; [exact w_ok|tauto|exact w_ok|]. now apply IHl.
  - cbn [good] in G. destruct G as [Gn G]. destruct m as [|kv m]; [now apply j_obj0|].
    rewrite <- (hm_collect_nodup _ Gn) at 1. clear Gn.
    set (sh := fun kv : list N * json F => show_string (fst kv) ++ w ++ bs ":" ++ w ++ show num w (snd kv)).
    change (bs "{" ++ join_comma w (map sh (kv :: m)) ++ bs "}") with (bs "{" ++ join_comma w (map sh (kv :: m)) ++ [] ++ bs "}").
    apply j_obj; [|now left]. revert kv IH G. induction m as [|kv' m IHm]; intros [k v] IH G; cbn [fold_right fst snd] in G; inv IH.
    + cbn [map join_comma]. unfold sh. cbn [fst snd]. rewrite <- !app_assoc. apply jm_one; try exact w_ok; [apply show_string_ok|]; tauto.
    + change (join_comma w (map sh ((k, v) :: kv' :: m))) with (w ++ sh (k, v) ++ w ++ bs "," ++ join_comma w (map sh (kv' :: m))).
      unfold sh at 1. cbn [fst snd]. rewrite <- !app_assoc. apply jm_more; try exact w_ok; [apply show_string_ok; tauto|tauto|]. apply IHm; [assumption|exact (proj2 (proj2 G))].
Qed.
End ShowOk.
(** Print, then parse: for every value, every white space and every printer of numbers that f64::from_str reads back. *)
Theorem C47_print_then_parse : forall F (f64_parse : list N -> F + unit) utf8 (num : F -> list N) w v,
  (forall x, g_number (num x) /\ f64_parse (num x) = inl x) -> ws w -> good utf8 v ->
  parse (json_p f64_parse utf8) (w ++ show num w v ++ w) = Success v (length (w ++ show num w v ++ w)).
Proof.
  intros F f utf8 num w v Hn Hw Hg. apply C47_documents_accepted. exists w, (show num w v), w. repeat split; try assumption. now apply show_ok.
Qed.
Definition f64_toy (s : list N) : list N + unit := inl s.
Example C47_example : let v := JObject [(bs "a", JArray [JNum (bs "-1.5e3"); JNull _; JBool _ true]); ([34; 10; 8594]%N, JStr _ [])] in
  good false v /\ parse (json_p f64_toy false) (bs "  { " ++ [34%N] ++ bs "a" ++ [34%N] ++ bs " :[-1.5e3 ,null, true]," ++ show_string [34; 10; 8594]%N ++ bs ":" ++ [34; 34]%N ++ bs "}") = Success v 45.
Proof.
  cbv zeta. split.
  - cbn. repeat split; try discriminate. constructor; [intros [E|[]]; discriminate|]. constructor; [tauto|constructor].
  - vm_compute. reflexivity.
Qed.
Print Assumptions C47_documents_accepted.
Print Assumptions C47_print_then_parse.

(** ** C48 *)
(** The text of an element never ends in a comma, up to white space. *)
Definition ends_well (s : list N) : Prop := exists p x w, s = p ++ [x] ++ w /\ ws w /\ ~ is_ws x /\ x <> 44%N.
Lemma ends_app : forall p s b, ends_well s -> ws b -> ends_well (p ++ s ++ b).
Proof.
  intros p s b (q & x & w & -> & Hw & Hx) Hb. exists (p ++ q), x, (w ++ b). split; [now rewrite <- !app_assoc|]. split; [now apply ws_app|exact Hx].
Qed.
Lemma ends_last : forall p x, ~ is_ws x -> x <> 44%N -> ends_well (p ++ [x]).
Proof. intros p x H1 H2. exists p, x, []. split; [reflexivity|]. split; [constructor|now split]. Qed.
Ltac endc := apply ends_last; [unfold is_ws; cbn; intuition discriminate|discriminate].
Lemma digits_end : forall s, digits1 s -> exists p x, s = p ++ [x] /\ digit x.
Proof.
  intros s [H Hne]. destruct (snoc_cases s) as [->|(p & x & ->)]; [congruence|]. exists p, x. split; [reflexivity|].
  apply Forall_app in H. destruct H as [_ H]. now inv H.
Qed.
Lemma number_end : forall s, g_number s -> exists p x, s = p ++ [x] /\ digit x.
Proof.
  intros s (m & i & f & e & -> & _ & Hi & Hf & He).
  destruct He as [->|(e' & sg & t & -> & _ & _ & Ht)].
  - destruct Hf as [->|(t & -> & Ht)].
    + rewrite !app_nil_r. assert (Hd : digits1 i).
      { destruct Hi as [->|(x & t & -> & Hx & Ht)]; (split; [|discriminate]); [constructor; [split; discriminate|constructor]|constructor; [unfold digit; lia|exact Ht]]. }
      destruct (digits_end Hd) as (p & x & -> & Hx). exists (m ++ p), x. now rewrite <- app_assoc.
    + rewrite app_nil_r. destruct (digits_end Ht) as (p & x & -> & Hx). exists (m ++ i ++ bs "." ++ p), x. now rewrite <- !app_assoc.
  - destruct (digits_end Ht) as (p & x & -> & Hx). exists (m ++ i ++ f ++ e' ++ sg ++ p), x. now rewrite <- !app_assoc.
Qed.
Lemma elems_end : forall F (f64_parse : list N -> F + unit) strict utf8 vs s, jelems f64_parse strict utf8 vs s -> ends_well s.
Proof.
  intros F f strict utf8 vs s H.
  assert (V : forall v t, jval f strict utf8 v t -> ends_well t).
  { intros v t K. destruct K.
    - apply (ends_last (bs "nul") (x := 108%N)); [unfold is_ws; cbn; intuition discriminate|discriminate].
    - apply (ends_last (bs "tru") (x := 101%N)); [unfold is_ws; cbn; intuition discriminate|discriminate].
    - apply (ends_last (bs "fals") (x := 101%N)); [unfold is_ws; cbn; intuition discriminate|discriminate].
    - destruct (number_end ltac:(eassumption)) as (p & y & -> & Hy). unfold digit in Hy. apply ends_last; [unfold is_ws; cbn; lia|lia].
    - match goal with K : g_string _ _ _ _ |- _ => destruct K as (is & _ & -> & _) end. rewrite app_assoc. endc.
    - rewrite app_assoc. endc.
    - rewrite !app_assoc. endc.
    - rewrite app_assoc. endc.
    - rewrite !app_assoc. endc. }
  induction H as [v a s b Ha Hv Hb|v a s b vs t Ha Hv Hb Ht IH].
  - apply ends_app; [now apply (V v)|exact Hb].
  - rewrite !app_assoc. rewrite <- (app_nil_r t). apply ends_app; [exact IH|constructor].
Qed.
Lemma trailing_comma_not_json : forall F (f64_parse : list N -> F + unit) utf8 v, ~ jdoc f64_parse true utf8 v (bs "[1,]").
Proof.
  intros F f utf8 v (a & t & b & E & Ha & Hv & Hb).
  assert (a = []) as -> by (destruct Ha as [|x a Hx Ha]; [reflexivity|]; exfalso; injection E as <- _; cbn in Hx; intuition discriminate).
  destruct Hv as [| | |x s Hg _|v s Hg|w Hw|vs s t He Ht|w Hw|ms s t Hm Ht]; try discriminate E.
  - apply number_hd in Hg. destruct Hg as (y & t & -> & Hy). injection E as <- _. unfold digit in Hy. cbn in Hy. lia.
  - destruct Hg as (is & _ & -> & _). discriminate E.
  - destruct Hw as [|x w Hx Hw]; [discriminate E|]. injection E as <- _. cbn in Hx. intuition discriminate.
  - destruct Ht as [->|[Ht _]]; [|discriminate]. apply elems_end in He. destruct He as (p & x & w & -> & Hw & Hx & Hc).
    rewrite <- !app_assoc in E. cbn [app] in E.
    assert (K : bs "1,]" = p ++ x :: w ++ bs "]" ++ b) by (apply (f_equal (@tl N)) in E; cbn in E |- *; rewrite E; repeat (rewrite <- app_assoc; cbn [app]); reflexivity). clear E.
    destruct p as [|p1 [|p2 [|p3 p]]]; cbn [app] in K; injection K; intros; subst.
    + destruct Hw as [|y w Hy Hw]; [discriminate|]. match goal with K : _ :: _ = (_ :: _) ++ _ |- _ => injection K; intros; subst end. cbn in Hy. intuition discriminate.
    + now apply Hc.
    + match goal with K : [] = ?w ++ _ |- _ => destruct w; discriminate end.
    + match goal with K : [] = ?w ++ _ |- _ => destruct w; discriminate end.
Qed.
(** The statement is false: a comma after the last element is accepted; so is an unescaped control character in a string. *)
Theorem C48_only_json_refuted : forall utf8,
  (exists s v n, parse (json_p f64_toy utf8) s = Success v n /\ ~ exists v, jdoc f64_toy true utf8 v s) /\
  (exists v n, parse (json_p f64_toy utf8) [34; 10; 34]%N = Success v n /\ ~ exists v, jdoc f64_toy true utf8 v [34; 10; 34]%N).
Proof.
  intros utf8. split.
  - exists (bs "[1,]"), (JArray [JNum (bs "1")]), 4. split; [now destruct utf8; vm_compute|]. intros [v H]. now apply trailing_comma_not_json in H.
  - exists (JStr _ [10%N]), 3. split; [now destruct utf8; vm_compute|]. intros [v (a & t & b & E & Ha & Hv & Hb)].
    assert (a = []) as -> by (destruct Ha as [|x a Hx Ha]; [reflexivity|]; exfalso; injection E as <- _; cbn in Hx; intuition discriminate).
    destruct Hv as [| | |x s Hg _|v s Hg|w Hw|vs s t He Ht|w Hw|ms s t Hm Ht]; try discriminate E.
    + apply number_hd in Hg. destruct Hg as (y & t & -> & Hy). injection E as <- _. unfold digit in Hy. cbn in Hy. lia.
    + destruct Hg as (is & Hi & -> & _). destruct is as [|[x|c|h] is]; try discriminate E. injection E as <- _. inv Hi.
      match goal with H : item_ok _ _ |- _ => destruct H as (_ & _ & H); specialize (H eq_refl) end. lia.
Qed.
(** Exact: the parser accepts the texts of the lenient grammar (which adds only these two liberties), whole, with the value
    they spell; it never panics and never loops. *)
Theorem C48_accepts_exactly_partial : forall F (f64_parse : list N -> F + unit) utf8 v s n,
  parse (json_p f64_parse utf8) s = Success v n <-> n = length s /\ jdoc f64_parse false utf8 v s.
Proof.
  intros F f utf8 v s n. split.
  - intros H. pose proof (h_json f utf8 s) as K. unfold parse in H. rewrite H in K. exact K.
  - intros [-> H]. now apply json_complete.
Qed.
Theorem C48_always_returns : forall F (f64_parse : list N -> F + unit) utf8 s,
  parse (json_p f64_parse utf8) s <> Panic /\ parse (json_p f64_parse utf8) s <> Diverge /\
  forall fuel, length s < fuel -> json_fuel f64_parse utf8 fuel s 0 = parse (json_p f64_parse utf8) s.
Proof.
  intros F f utf8 s. pose proof (h_json f utf8 s) as K. unfold parse. split; [|split].
  - intros E. now rewrite E in K.
  - intros E. now rewrite E in K.
  - intros fuel H. now apply json_fuel_enough.
Qed.
(** A text spells at most one value. *)
Theorem C48_unambiguous : forall F (f64_parse : list N -> F + unit) utf8 v v' s,
  jdoc f64_parse false utf8 v s -> jdoc f64_parse false utf8 v' s -> v = v'.
Proof. intros F f utf8 v v' s H H'. apply json_complete in H, H'. congruence. Qed.
Example C48_example : (exists e c, parse (json_p f64_toy true) (bs "[1,,2]") = Failure e c) /\
  parse (json_p f64_toy true) (bs " [1, [2,] ] ") = Success (JArray [JNum (bs "1"); JArray [JNum (bs "2")]]) 12.
Proof. split; [do 2 eexists|]; vm_compute; reflexivity. Qed.
Print Assumptions C48_only_json_refuted.
Print Assumptions C48_accepts_exactly_partial.
Print Assumptions C48_always_returns.
Print Assumptions C48_unambiguous.

(** ** C59: duplicate members: the last one wins. *)
Fixpoint last_value {V} (k : list N) (ms : list (list N * V)) : option V :=
  match ms with
  | [] => None
  | (k', v) :: ms' => match last_value k ms' with
                      | Some v' => Some v'
                      | None => if list_eq_dec N.eq_dec k k' then Some v else None
                      end
  end.
Lemma collect_get : forall V (ms m : list (list N * V)) k,
  hm_get (fold_left (fun m kv => hm_set m (fst kv) (snd kv)) ms m) k = match last_value k ms with Some v => Some v | None => hm_get m k end.
Proof.
  intros V ms. induction ms as [|[k' v] ms IH]; intros m k; [reflexivity|]. cbn [fold_left fst snd last_value]. rewrite IH, hm_get_set.
  destruct (last_value k ms); [reflexivity|]. now destruct (list_eq_dec N.eq_dec k k').
Qed.
Lemma hm_set_keys : forall V (m : list (list N * V)) k v x, In x (map fst (hm_set m k v)) -> x = k \/ In x (map fst m).
Proof.
  intros V m k v x. induction m as [|[a b] m IH]; cbn; [intuition congruence|].
  destruct (list_eq_dec N.eq_dec k a) as [->|]; cbn; intuition congruence.
Qed.
Lemma hm_set_nodup : forall V (m : list (list N * V)) k v, NoDup (map fst m) -> NoDup (map fst (hm_set m k v)).
Proof.
  intros V m k v H. induction m as [|[a b] m IH]; cbn; [constructor; [easy|constructor]|]. inv H.
  destruct (list_eq_dec N.eq_dec k a) as [->|Hk]; cbn; constructor; try assumption.
  - intros K. apply hm_set_keys in K. destruct K; [congruence|contradiction].
  - now apply IH.
Qed.
Theorem C59_last_member_wins : forall F (f64_parse : list N -> F + unit) utf8 (ms : list (list N * json F)) a s b,
  ws a -> jmembers f64_parse true utf8 ms s -> ws b ->
  exists m, parse (json_p f64_parse utf8) (a ++ bs "{" ++ s ++ bs "}" ++ b) = Success (JObject m) (length (a ++ bs "{" ++ s ++ bs "}" ++ b)) /\
    NoDup (map fst m) /\ forall k, hm_get m k = last_value k ms.
Proof.
  intros F f utf8 ms a s b Ha Hm Hb. exists (hm_collect ms). split; [|split].
  - apply C47_documents_accepted. exists a, (bs "{" ++ s ++ [] ++ bs "}"), b. split; [now rewrite <- !app_assoc|].
    split; [exact Ha|]. split; [|exact Hb]. apply j_obj; [exact Hm|now left].
  - unfold hm_collect. assert (G : forall ms m : list (list N * json F), NoDup (map fst m) -> NoDup (map fst (fold_left (fun m kv => hm_set m (fst kv) (snd kv)) ms m))).
    { clear. induction ms as [|[k v] ms IH]; intros m H; [exact H|]. cbn [fold_left]. apply IH. now apply hm_set_nodup. }
    apply G. constructor.
  - intros k. unfold hm_collect. rewrite collect_get. cbn. now destruct (last_value k ms).
Qed.
Example C59_example : let q := 34%N in parse (json_p f64_toy true) (bs "{" ++ [q; 97; q]%N ++ bs ":1," ++ [q; 97; q]%N ++ bs ":2}") = Success (JObject [(bs "a", JNum (bs "2"))]) 13.
Proof. vm_compute. reflexivity. Qed.
Print Assumptions C59_last_member_wins.

(** ** C60: escapes and the strings returned. *)
Definition scalar (c : N) : Prop := (c < 1114112)%N /\ ~ (55296 <= c <= 57343)%N.
Ltac range_true := unfold cont, in_range; repeat match goal with
  | |- context[(?a <=? ?b)%N] => first [rewrite (proj2 (N.leb_le a b)) by lia|rewrite (proj2 (N.leb_gt a b)) by lia]
  | |- context[(?a <? ?b)%N] => first [rewrite (proj2 (N.ltb_lt a b)) by lia|rewrite (proj2 (N.ltb_ge a b)) by lia]
  | |- context[(?a =? ?b)%N] => first [rewrite (proj2 (N.eqb_eq a b)) by lia|rewrite (proj2 (N.eqb_neq a b)) by lia]
  end; cbn [andb orb].
Lemma encode_valid : forall c, scalar c -> utf8_valid (utf8_encode c) = true.
Proof.
  intros c [H1 H2]. unfold utf8_encode.
  change 262144%N with (64 * 64 * 64)%N. change 4096%N with (64 * 64)%N. rewrite <- !N.div_div by discriminate.
  pose proof (N.div_mod c 64 ltac:(discriminate)) as D1. pose proof (N.mod_lt c 64 ltac:(discriminate)) as D1'.
  pose proof (N.div_mod (c / 64) 64 ltac:(discriminate)) as D2. pose proof (N.mod_lt (c / 64) 64 ltac:(discriminate)) as D2'.
  pose proof (N.div_mod (c / 64 / 64) 64 ltac:(discriminate)) as D3. pose proof (N.mod_lt (c / 64 / 64) 64 ltac:(discriminate)) as D3'.
  generalize dependent (c mod 64)%N. intros m1. generalize dependent ((c / 64) mod 64)%N. intros m2. generalize dependent ((c / 64 / 64) mod 64)%N. intros m3.
  generalize dependent (c / 64 / 64 / 64)%N. intros q3. generalize dependent (c / 64 / 64)%N. intros q2. generalize dependent (c / 64)%N. intros q1. intros.
  destruct (N.ltb_spec c 128) as [L1|L1]; [cbn [utf8_valid]; range_true; reflexivity|].
  destruct (N.ltb_spec c 2048) as [L2|L2].
  { cbn [utf8_valid]. assert (2 <= q1 <= 31)%N by lia. range_true. reflexivity. }
  destruct (N.ltb_spec c 65536) as [L3|L3].
  { assert (q2 <= 15)%N as B1 by lia. assert (q2 = 0 -> 32 <= m2)%N as B4 by lia. assert (q2 = 13 -> m2 <= 31)%N as B5 by lia.
    cbn [utf8_valid]. assert (N.ltb (224 + q2) 128 = false) as -> by (apply N.ltb_ge; lia).
    assert (in_range 194 223 (224 + q2) = false) as -> by (unfold in_range; apply andb_false_iff; right; apply N.leb_gt; lia).
    destruct (N.eqb_spec (224 + q2) 224); [range_true; reflexivity|]. destruct (N.eqb_spec (224 + q2) 237); [range_true; reflexivity|].
    assert (in_range 225 236 (224 + q2) || in_range 238 239 (224 + q2) = true) as ->.
    { unfold in_range. apply orb_true_iff. rewrite !andb_true_iff, !N.leb_le. lia. }
    range_true. reflexivity. }
  assert (q3 <= 4)%N as B1 by lia. assert (q3 = 0 -> 16 <= m3)%N as B5 by lia. assert (q3 = 4 -> m3 <= 15)%N as B6 by lia.
  clear H1 H2 L1 L2 L3 D1 D2 D3. rewrite utf8_step4.
  assert (D : (q3 = 0 \/ q3 = 4 \/ 1 <= q3 <= 3)%N) by lia. destruct D as [->|[->|D]]; range_true; reflexivity.
Qed.
Lemma ascii_valid : forall s, ascii s -> utf8_valid s = true.
Proof. intros s H. apply ascii_utf8 in H. unfold from_utf8 in H. now destruct (utf8_valid s). Qed.
Lemma items_valid : forall strict n is a, length is <= n -> Forall (item_ok strict) is -> utf8_valid (a ++ flat_map item_text is) = true ->
  utf8_valid (a ++ items_value utf8_encode is) = true.
Proof.
  intros strict. induction n as [|n IH]; intros is a Hn Hi Hv; [destruct is; [exact Hv|cbn in Hn; lia]|].
  destruct is as [|[x|c|h] is]; [exact Hv| | |]; cbn [List.length] in Hn; inv Hi; cbn [flat_map item_text app items_value] in *.
  - change (a ++ x :: ?l) with (a ++ [x] ++ l) in *. rewrite app_assoc in *. apply IH; [lia|assumption|exact Hv].
  - rewrite utf8_valid_split in Hv by reflexivity. apply andb_true_iff in Hv. destruct Hv as [Va Vr].
    match goal with H : item_ok _ (SEsc c) |- _ => cbn in H; assert (Hc : (c < 128)%N /\ (esc_value c < 128)%N)
      by (unfold esc_value; repeat (destruct H as [<-|H]; [split; vm_compute; reflexivity|]); contradiction) end.
    change (c :: ?l) with ([] ++ c :: l) in Vr. rewrite utf8_valid_split in Vr by apply Hc.
    rewrite utf8_valid_split by apply Hc. rewrite Va. cbn [andb] in *. apply (IH is []); [lia|assumption|exact Vr].
  - match goal with H : item_ok _ (SUni h) |- _ => destruct H as [Hh Lh] end.
    assert (U : forall h l b, Forall hexdig h -> utf8_valid (b ++ 92%N :: 117%N :: h ++ l) = true -> utf8_valid b = true /\ utf8_valid l = true).
    { clear. intros h l b Hh V. rewrite utf8_valid_split in V by reflexivity. apply andb_true_iff in V. destruct V as [-> V]. split; [reflexivity|].
      rewrite <- V. change (117%N :: h ++ l) with ((117%N :: h) ++ l). symmetry. apply utf8_valid_app, ascii_valid.
      constructor; [reflexivity|]. eapply Forall_impl; [|exact Hh]. unfold hexdig. intros y Hy. lia. }
    destruct (U _ _ _ Hh Hv) as [Va Vr]. pose proof (hex_value_bound Hh) as B. rewrite Lh in B. change (16 ^ N.of_nat 4)%N with 65536%N in B.
    rewrite utf8_valid_app by exact Va. cbv zeta.
    assert (E : forall c l, scalar c -> utf8_valid l = true -> utf8_valid (utf8_encode c ++ l) = true).
    { intros c l Hc Hl. rewrite utf8_valid_app by now apply encode_valid. exact Hl. }
    assert (R : scalar 65533) by (split; lia).
    assert (T : utf8_valid (items_value utf8_encode is) = true) by (apply (IH is []); [lia|assumption|exact Vr]).
    destruct (N.leb_spec 55296 (hex_value h)), (N.leb_spec (hex_value h) 56319); cbn [andb];
      [|destruct (N.leb_spec 56320 (hex_value h)), (N.leb_spec (hex_value h) 57343); cbn [andb]; apply E; try assumption; split; lia ..].
    destruct is as [|[x|c|h2] is]; [now apply E ..|].
    destruct (N.leb_spec 56320 (hex_value h2)), (N.leb_spec (hex_value h2) 57343); cbn [andb]; try (now apply E).
    apply E; [split; lia|]. match goal with H : Forall _ (SUni h2 :: is) |- _ => inv H end.
    match goal with H : item_ok _ (SUni h2) |- _ => destruct H as [Hh2 Lh2] end.
    cbn [flat_map item_text] in Vr. rewrite <- app_assoc in Vr. destruct (U _ _ [] Hh2 Vr) as [_ Vr2].
    apply (IH is []); [cbn in Hn; lia|assumption|exact Vr2].
Qed.
Lemma string_valid : forall strict utf8 v s, g_string strict utf8 v s -> utf8 = true -> utf8_valid v = true.
Proof.
  intros strict utf8 v s (is & Hi & _ & -> & Hv) Hu. rewrite Hu. apply (@items_valid strict (length is) is []); [lia|exact Hi|now apply Hv].
Qed.
Lemma good_fold : forall V utf8 (ms m : list (list N * json V)), NoDup (map fst m) ->
  Forall (fun kv => (utf8 = true -> utf8_valid (fst kv) = true) /\ good utf8 (snd kv)) ms ->
  Forall (fun kv => (utf8 = true -> utf8_valid (fst kv) = true) /\ good utf8 (snd kv)) m ->
  good utf8 (JObject (fold_left (fun m kv => hm_set m (fst kv) (snd kv)) ms m)).
Proof.
  intros V utf8 ms. induction ms as [|[k v] ms IH]; intros m Hn Hms Hm; cbn [fold_left fst snd].
  - cbn [good]. split; [exact Hn|]. induction Hm as [|kv m Hkv Hm IHm]; cbn [fold_right]; [exact I|]. split; [apply Hkv|]. split; [apply Hkv|].
    apply IHm. now inv Hn.
  - inv Hms. apply IH; [now apply hm_set_nodup|assumption|].
    match goal with H : _ /\ good _ _ |- _ => revert H end. cbn [fst snd]. intros [Hk Hv]. clear IH Hn.
    induction Hm as [|[a b] m Hab Hm IHm]; cbn [hm_set]; [constructor; [now split|constructor]|].
    destruct (list_eq_dec N.eq_dec k a) as [->|]; constructor; try assumption. now split.
Qed.
Lemma doc_good : forall F (f64_parse : list N -> F + unit) strict utf8,
  (forall v s, jval f64_parse strict utf8 v s -> good utf8 v) /\
  (forall vs s, jelems f64_parse strict utf8 vs s -> Forall (good utf8) vs) /\
  (forall ms s, jmembers f64_parse strict utf8 ms s -> Forall (fun kv => (utf8 = true -> utf8_valid (fst kv) = true) /\ good utf8 (snd kv)) ms).
Proof.
  intros F f strict utf8. apply (@jval_ind3 F f strict utf8 (fun v s _ => good utf8 v) (fun vs s _ => Forall (good utf8) vs)
    (fun ms s _ => Forall (fun kv => (utf8 = true -> utf8_valid (fst kv) = true) /\ good utf8 (snd kv)) ms)); intros; try exact I.
  - cbn. now apply (string_valid (strict := strict) (s := s)).
  - match goal with H : Forall _ _ |- good _ _ => clear - H; induction H; cbn [good fold_right] in *; [exact I|split; assumption] end.
  - split; [constructor|exact I].
  - apply good_fold; [constructor|assumption|constructor].
  - repeat constructor. assumption.
  - now constructor.
  - constructor; [|constructor]. cbn [fst snd]. split; [now apply (string_valid (strict := strict) (s := sk))|assumption].
  - constructor; [|assumption]. cbn [fst snd]. split; [now apply (string_valid (strict := strict) (s := sk))|assumption].
Qed.
(** Every value returned is a value of the Rust type: in particular all strings and keys are valid UTF-8. *)
Theorem C60_strings_are_utf8 : forall F (f64_parse : list N -> F + unit) utf8 s v n,
  parse (json_p f64_parse utf8) s = Success v n -> good utf8 v.
Proof.
  intros F f utf8 s v n H. apply C48_accepts_exactly_partial in H. destruct H as [_ (a & t & b & _ & _ & H & _)].
  now apply (doc_good f false utf8) in H.
Qed.
(** Hence printing what was read and reading it again changes nothing. *)
Theorem C60_read_print_read : forall F (f64_parse : list N -> F + unit) utf8 (num : F -> list N) w s v n,
  (forall x, g_number (num x) /\ f64_parse (num x) = inl x) -> ws w ->
  parse (json_p f64_parse utf8) s = Success v n ->
  parse (json_p f64_parse utf8) (w ++ show num w v ++ w) = Success v (length (w ++ show num w v ++ w)).
Proof. intros F f utf8 num w s v n Hn Hw H. apply C47_print_then_parse; [exact Hn|exact Hw|]. now apply C60_strings_are_utf8 in H. Qed.
(** A surrogate pair is one character; a lone surrogate becomes U+FFFD. *)
Theorem C60_surrogates : forall F (f64_parse : list N -> F + unit) utf8 h1 h2,
  Forall hexdig h1 -> length h1 = 4 -> Forall hexdig h2 -> length h2 = 4 ->
  let enc := if (utf8 : bool) then utf8_encode else fun c => [c] in
  let text := [34; 92; 117]%N ++ h1 ++ [92; 117]%N ++ h2 ++ [34]%N in
  ((55296 <= hex_value h1 <= 56319)%N -> (56320 <= hex_value h2 <= 57343)%N ->
   exists c, (65536 <= c <= 1114111)%N /\ hex_value h1 = (55296 + (c - 65536) / 1024)%N /\ hex_value h2 = (56320 + (c - 65536) mod 1024)%N /\
     parse (json_p f64_parse utf8) text = Success (JStr F (enc c)) (length text)) /\
  ((56320 <= hex_value h1 <= 57343)%N -> (hex_value h2 < 55296)%N ->
   parse (json_p f64_parse utf8) text = Success (JStr F (enc 65533%N ++ enc (hex_value h2))) (length text)) /\
  ((55296 <= hex_value h1 <= 56319)%N -> (hex_value h2 < 55296)%N ->
   parse (json_p f64_parse utf8) text = Success (JStr F (enc 65533%N ++ enc (hex_value h2))) (length text)).
Proof.
  intros F f utf8 h1 h2 H1 L1 H2 L2 enc text.
  assert (P : parse (json_p f utf8) text = Success (JStr F (items_value enc [SUni h1; SUni h2])) (length text)).
  { apply C47_documents_accepted. exists [], text, []. split; [now rewrite app_nil_r|]. split; [constructor|]. split; [|constructor].
    apply j_str. exists [SUni h1; SUni h2]. split; [repeat constructor; assumption|]. split.
    { unfold text. cbn [flat_map item_text app]. repeat (rewrite <- app_assoc; cbn [app]). reflexivity. }
    split; [reflexivity|]. intros _. apply ascii_valid. cbn [flat_map item_text app].
    assert (A : forall h, Forall hexdig h -> ascii h) by (intros h Hh; eapply Forall_impl; [|exact Hh]; unfold hexdig; intros; lia).
    repeat (apply Forall_app; split); repeat constructor; try (now apply A).
    apply Forall_app. split; [now apply A|]. constructor; [reflexivity|]. constructor; [reflexivity|]. rewrite app_nil_r. now apply A. }
  cbn [items_value] in P. cbv zeta in P. split; [|split].
  - intros U1 U2. exists ((hex_value h1 - 55296) * 1024 + (hex_value h2 - 56320) + 65536)%N.
    assert (D : ((hex_value h1 - 55296) * 1024 + (hex_value h2 - 56320) + 65536 - 65536 = 1024 * (hex_value h1 - 55296) + (hex_value h2 - 56320))%N) by lia.
    rewrite D. split; [lia|]. split; [|split].
    + rewrite <- (N.div_unique _ 1024 (hex_value h1 - 55296) (hex_value h2 - 56320)) by lia. lia.
    + rewrite <- (N.mod_unique _ 1024 (hex_value h1 - 55296) (hex_value h2 - 56320)) by lia. lia.
    + rewrite P. repeat match goal with |- context[(?a <=? ?b)%N] => rewrite (proj2 (N.leb_le a b)) by lia end. cbn [andb items_value]. now rewrite app_nil_r.
  - intros U1 U2. rewrite P. rewrite (proj2 (N.leb_gt (hex_value h1) 56319)) by lia. rewrite andb_false_r.
    rewrite (proj2 (N.leb_le 56320 (hex_value h1))) by lia. rewrite (proj2 (N.leb_le (hex_value h1) 57343)) by lia. cbn [andb].
    rewrite (proj2 (N.leb_gt 55296 (hex_value h2))) by lia. rewrite (proj2 (N.leb_gt 56320 (hex_value h2))) by lia. cbn [andb]. now rewrite app_nil_r.
  - intros U1 U2. rewrite P. rewrite (proj2 (N.leb_le 55296 (hex_value h1))) by lia. rewrite (proj2 (N.leb_le (hex_value h1) 56319)) by lia. cbn [andb].
    rewrite (proj2 (N.leb_gt 56320 (hex_value h2))) by lia. cbn [andb]. rewrite (proj2 (N.leb_gt 55296 (hex_value h2))) by lia. cbn [andb]. now rewrite app_nil_r.
Qed.
Example C60_example : parse (json_p f64_toy true) ([34; 92; 117]%N ++ bs "D83D" ++ [92; 117]%N ++ bs "de00" ++ [34]%N) = Success (JStr _ [240; 159; 152; 128]%N) 14 /\
  parse (json_p f64_toy true) ([34; 92; 117]%N ++ bs "D83D" ++ [92; 117]%N ++ bs "0041" ++ [34]%N) = Success (JStr _ [239; 191; 189; 65]%N) 14.
Proof. split; vm_compute; reflexivity. Qed.
Print Assumptions C60_strings_are_utf8.
Print Assumptions C60_read_print_read.
Print Assumptions C60_surrogates.
