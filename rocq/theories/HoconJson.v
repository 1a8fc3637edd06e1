(** JSON texts among the HOCON texts of HoconSpec.v. *)
From Verif Require Import Base Core Comb Closure RepFacts LitFacts Hoare Runs Weak Agree Text Json JsonSpec JsonFacts Hocon HoconFacts HoconParse HoconLookup HoconResolve HoconSpec HoconComplete.
Set Implicit Arguments.
Local Open Scope string_scope.
Local Open Scope nat_scope.
Local Open Scope list_scope.

Section JsonHocon.
Variables F D : Type.
Variable f64_parse : list N -> F + unit.
Variable dec : list N -> option D.
Variable conv : F -> D.

(** The HOCON value of a JSON value. *)
Fixpoint as_hocon (v : json F) : cv D :=
  match v with
  | JNull _ => CNull
  | JBool _ b => CBool b
  | JNum x => CNum (conv x)
  | JStr _ s => CStr s
  | JArray l => CArr (map as_hocon l)
  | JObject m => CObj (map (fun '(k, v) => (k, as_hocon v)) m)
  end.

(** JSON texts [s] of the value [v] in which numbers are unsigned and have no exponent without a fraction, strings are [g_quoted] (not empty, without
    brackets and single quotes, not beginning with layout or a comment), keys are pairwise different and no array contains an object.
    [ob]: objects are allowed here. *)
Inductive sj : bool -> list N -> json F -> Prop :=
| sj_null : forall ob, sj ob (bs "null") (JNull F)
| sj_true : forall ob, sj ob (bs "true") (JBool F true)
| sj_false : forall ob, sj ob (bs "false") (JBool F false)
| sj_num : forall ob s x, g_unsigned s -> f64_parse s = inl x -> sj ob s (JNum x)
| sj_str : forall ob v s, g_quoted v s -> sj ob s (JStr F v)
| sj_arr0 : forall ob w, ws w -> sj ob (bs "[" ++ w ++ bs "]") (JArray [])
| sj_arr : forall ob w s vs, ws w -> sjelems s vs -> sj ob (bs "[" ++ w ++ s ++ bs "]") (JArray vs)
| sj_obj0 : forall w, ws w -> sj true (bs "{" ++ w ++ bs "}") (JObject [])
| sj_obj : forall w s ms, ws w -> sjmembers s ms -> NoDup (map fst ms) -> sj true (bs "{" ++ w ++ s ++ bs "}") (JObject ms)
with sjelems : list N -> list (json F) -> Prop :=
| se_one : forall s v b, sj false s v -> ws b -> sjelems (s ++ b) [v]
| se_more : forall s v b a t vs, sj false s v -> ws b -> ws a -> sjelems t vs -> sjelems (s ++ b ++ bs "," ++ a ++ t) (v :: vs)
with sjmembers : list N -> list (list N * json F) -> Prop :=
| sm_one : forall k sk b c s v d, g_quoted k sk -> ws b -> ws c -> sj true s v -> ws d -> sjmembers ((sk ++ b ++ bs ":" ++ c ++ s) ++ d) [(k, v)]
| sm_more : forall k sk b c s v d a t ms, g_quoted k sk -> ws b -> ws c -> sj true s v -> ws d -> ws a -> sjmembers t ms ->
    sjmembers ((sk ++ b ++ bs ":" ++ c ++ s) ++ d ++ bs "," ++ a ++ t) ((k, v) :: ms).
(** A document: an object or an array. *)
Definition sjdoc (s : list N) (v : json F) : Prop :=
  exists a t b, s = a ++ t ++ b /\ ws a /\ sj true t v /\ ws b /\ ((exists l, v = JArray l) \/ exists m, v = JObject m).

Scheme sj_mut := Induction for sj Sort Prop
  with sjelems_mut := Induction for sjelems Sort Prop
  with sjmembers_mut := Induction for sjmembers Sort Prop.
Combined Scheme sj_ind3 from sj_mut, sjelems_mut, sjmembers_mut.

(** ** They are JSON *)
Lemma quoted_string : forall v s, g_quoted v s -> g_string true true v s.
Proof.
  intros v s (is & _ & Hi & Hs & Hv & Hu & _). exists is. split; [eapply Forall_impl; [|exact Hi]; intros i [H _]; exact H|]. easy.
Qed.
Lemma unsigned_number : forall s, g_unsigned s -> g_number s.
Proof. intros s (i & f & e & -> & Hi & Hf & He & _). exists [], i, f, e. split; [reflexivity|]. split; [now left|]. easy. Qed.
Lemma collect_app : forall (l a : list (list N * json F)), NoDup (map fst (a ++ l)) -> fold_left (fun m kv => hm_set m (fst kv) (snd kv)) l a = a ++ l.
Proof.
  intros l. induction l as [|[k v] l IH]; intros a H; cbn [fold_left]; [now rewrite app_nil_r|]. cbn [fst snd]. rewrite (hm_set_new dec).
  - rewrite IH; rewrite <- app_assoc; [reflexivity|exact H].
  - rewrite map_app in H. cbn in H. apply NoDup_remove_2 in H. intros C. apply H. apply in_or_app. now left.
Qed.
Lemma collect_new : forall ms : list (list N * json F), NoDup (map fst ms) -> hm_collect ms = ms.
Proof. intros ms H. apply (@collect_app ms []). exact H. Qed.
Lemma sj_json : (forall ob s v, sj ob s v -> jval f64_parse true true v s) /\
  (forall s vs, sjelems s vs -> forall a, ws a -> jelems f64_parse true true vs (a ++ s)) /\
  (forall s ms, sjmembers s ms -> forall a, ws a -> jmembers f64_parse true true ms (a ++ s)).
Proof.
  apply sj_ind3.
  - constructor.
  - constructor.
  - constructor.
  - intros ob s x Hs Hx. apply j_num; [now apply unsigned_number|exact Hx].
  - intros ob v s H. apply j_str. now apply quoted_string.
  - intros ob w Hw. now apply j_arr0.
  - intros ob w s vs Hw _ H. replace (bs "[" ++ w ++ s ++ bs "]") with (bs "[" ++ (w ++ s) ++ [] ++ bs "]") by now rewrite !app_assoc, app_nil_r.
    apply j_arr; [now apply H|now left].
  - intros w Hw. now apply j_obj0.
  - intros w s ms Hw _ H Hn. replace (bs "{" ++ w ++ s ++ bs "}") with (bs "{" ++ (w ++ s) ++ [] ++ bs "}") by now rewrite !app_assoc, app_nil_r.
    rewrite <- (collect_new _ Hn) at 1. apply j_obj; [now apply H|now left].
  - intros s v b _ H Hb a Ha. now apply je_one.
  - intros s v b a' t vs _ H Hb Ha' _ H' a Ha. rewrite (app_assoc (bs ",") a' t), <- (app_assoc (bs ",")). apply je_more; trivial. now apply H'.
  - intros k sk b c s v d Hk Hb Hc _ H Hd a Ha. rewrite <- !app_assoc. apply jm_one; trivial. now apply quoted_string.
  - intros k sk b c s v d a' t ms Hk Hb Hc _ H Hd Ha' _ H' a Ha. rewrite <- !app_assoc. apply jm_more; trivial; [now apply quoted_string|now apply H'].
Qed.

(** ** They are HOCON *)
Hypothesis conv_ok : forall s x, g_unsigned s -> f64_parse s = inl x -> dec s = Some (conv x).
Lemma gap_of_ws : forall w, ws w -> gap w.
Proof. intros w H. exists [], w. split; [reflexivity|]. split; [|exact H]. exists [], []. split; [reflexivity|]. split; constructor. Qed.
Lemma block_of_ws : forall w, ws w -> block w.
Proof. intros w H. exists w, []. split; [now rewrite app_nil_r|]. split; [exact H|constructor]. Qed.
(** White space, commas and closing braces up to a quote or the end. *)
Definition jquiet (l : list N) : Prop :=
  exists r f, l = r ++ f /\ Forall (fun x => In x ([32; 9; 13; 10]%N ++ bs ",}")) r /\ match f with [] => True | x :: _ => x = 34%N end.
Lemma brace_cons : forall x l, ~ stop_char x -> brace_ok l -> brace_ok (x :: l).
Proof.
  intros x l Hx (r & g & f & -> & Hr & H). exists (x :: r), g, f. split; [reflexivity|]. split; [now constructor|exact H].
Qed.
Lemma jquiet_ws : forall r f, Forall (fun x => In x ([32; 9; 13; 10]%N ++ bs ",}")) r -> match f with [] => True | x :: _ => x = 34%N end ->
  exists w t, r ++ f = w ++ t /\ ws w /\ solid t /\ match t with [] => True | x :: _ => ~ In x (bs "=:{[") end.
Proof.
  intros r f Hr Hf. induction Hr as [|x r Hx Hr (w & t & E & Hw & Ht & Hn)].
  - exists [], f. split; [reflexivity|]. split; [constructor|]. destruct f as [|z f]; [now split|]. subst z. split; [shd|lits].
  - apply in_app_or in Hx. destruct Hx as [Hx|Hx].
    + exists (x :: w), t. split; [cbn; now rewrite E|]. split; [now constructor|now split].
    + exists [], ((x :: r) ++ f). split; [reflexivity|]. split; [constructor|]. cbn in Hx. destruct Hx as [<-|[<-|[]]]; (split; [shd|lits]).
Qed.
Lemma brace_line : forall x r f, newline x -> Forall (fun x => In x ([32; 9; 13; 10]%N ++ bs ",}")) r -> match f with [] => True | x :: _ => x = 34%N end -> brace_ok (x :: r ++ f).
Proof.
  intros x r f Hx Hr Hf. destruct (jquiet_ws f Hr Hf) as (w & t & E & Hw & Ht & Hn). exists [], (x :: w), t. split; [cbn; now rewrite E|]. split; [constructor|].
  cbn [app]. split; [destruct Hx as [->| ->]; (split; [unfold stop_char; cbn; intuition|discriminate])|]. split; [|now split].
  apply gap_of_ws. constructor; [|exact Hw]. destruct Hx as [->| ->]; cbn; intuition.
Qed.
Lemma jquiet_ok : forall l, jquiet l -> brace_ok l.
Proof.
  intros l (r & f & -> & Hr & Hf). induction r as [|x r IH].
  - exists [], [], f. split; [reflexivity|]. split; [constructor|]. cbn [app]. destruct f as [|y f].
    + split; [exact I|]. split; [apply gap_of_ws; constructor|]. now split.
    + subst y. split; [split; [unfold stop_char; cbn; intuition|discriminate]|]. split; [apply gap_of_ws; constructor|]. split; [shd|lits].
  - inv Hr. cbn [app]. destruct (N.eq_dec x 13) as [->|N1]; [apply brace_line; trivial; now right|]. destruct (N.eq_dec x 10) as [->|N2]; [apply brace_line; trivial; now left|].
    apply brace_cons; [|now apply IH]. cbn in H1. unfold stop_char. cbn. intuition (subst; discriminate || lia).
Qed.
Lemma jquiet_app : forall r l, Forall (fun x => In x ([32; 9; 13; 10]%N ++ bs ",}")) r -> jquiet l -> jquiet (r ++ l).
Proof.
  intros r l Hr (r' & f & -> & Hr' & Hf). exists (r ++ r'), f. split; [now rewrite app_assoc|]. split; [|exact Hf]. apply Forall_app. now split.
Qed.
Lemma ws_jquiet : forall w l, ws w -> jquiet l -> jquiet (w ++ l).
Proof. intros w l Hw. apply jquiet_app. eapply Forall_impl; [|exact Hw]. intros x Hx. cbn in *. intuition. Qed.
Lemma quote_jquiet : forall k s l, g_quoted k s -> jquiet (s ++ l).
Proof. intros k s l (is & _ & _ & -> & _). exists [], (([34%N] ++ flat_map item_text is ++ [34%N]) ++ l). split; [reflexivity|]. split; [constructor|reflexivity]. Qed.
Definition jfollow (g f : list N) : Prop := ws g /\ match f with [] => True | x :: _ => In x (bs ",]}") end.
Lemma members_jquiet : forall s ms l, sjmembers s ms -> jquiet (s ++ l).
Proof. intros s ms l H. destruct H; rewrite <- !app_assoc; eapply quote_jquiet; eassumption. Qed.
Lemma follow_num : forall g f, jfollow g f -> match g ++ f with [] => True | x :: _ => ~ digit x /\ ~ In x (bs ".eE") end.
Proof.
  intros [|x g] f [Hg Hf].
  - cbn [app]. destruct f as [|y f]; [exact I|]. cbn in *. unfold digit. intuition lia.
  - inv Hg. cbn in *. unfold digit. intuition lia.
Qed.
Lemma follow_unit : forall g f, jfollow g f -> no_unit f.
Proof.
  intros g f [_ Hf] w Hw t E. destruct f as [|y f]; [cbn in Hw; repeat destruct Hw as [<-|Hw]; try easy; discriminate E|].
  cbn in Hf, Hw. repeat destruct Hw as [<-|Hw]; try easy; cbn in E; injection E as -> _; intuition discriminate.
Qed.
Lemma sj_hocon : (forall ob s v, sj ob s v -> forall g f, jfollow g f -> (ob = true -> jquiet (g ++ f)) -> hval dec s g f (as_hocon v)) /\
  (forall s vs, sjelems s vs -> forall f, helems dec s (93%N :: f) (map as_hocon vs)) /\
  (forall s ms, sjmembers s ms -> forall f, jquiet f -> hmembers dec s (125%N :: f) (map (fun '(k, v) => (k, as_hocon v)) ms)).
Proof.
  apply sj_ind3; cbn [as_hocon map].
  - constructor.
  - constructor.
  - constructor.
  - intros ob s x Hs Hx g f Hf _. apply hv_num; [exact Hs|now apply conv_ok|now apply follow_num|now apply follow_unit with g].
  - intros ob v s H g f _ _. now apply hv_quoted.
  - intros ob w Hw g f _ _. apply hv_arr, ha_nil. now apply gap_of_ws.
  - intros ob w s vs Hw _ H g f _ _. apply hv_arr, ha_some; [now apply gap_of_ws|apply H].
  - intros w Hw g f _ Q. apply hv_obj, ho_nil; [now apply gap_of_ws|now apply jquiet_ok, Q].
  - intros w s ms Hw _ H Hn g f _ Q. apply hv_obj, ho_some; [now apply gap_of_ws|now apply H, Q| |now apply jquiet_ok, Q].
    rewrite map_map. erewrite map_ext; [exact Hn|]. now intros [k v].
  - intros s v b _ H Hb f. apply he_one; [now apply gap_of_ws|]. apply H; [|discriminate]. split; [exact Hb|cbn; intuition].
  - intros s v b a t vs _ H Hb Ha _ H' f. apply he_more; try (now apply gap_of_ws); [|apply H']. apply H; [|discriminate]. split; [exact Hb|cbn; intuition].
  - intros k sk b c s v d Hk Hb Hc _ H Hd f Q. apply hb_one; [now apply gap_of_ws|]. apply hk_kv; [now right|now apply block_of_ws|now right|now apply gap_of_ws|].
    apply H; [split; [exact Hd|cbn; intuition]|]. intros _. apply ws_jquiet; [exact Hd|]. apply (@jquiet_app [125%N]); [constructor; [cbn; intuition|constructor]|exact Q].
  - intros k sk b c s v d a t ms Hk Hb Hc _ H Hd Ha Ht H' f Q. apply hb_comma; try (now apply gap_of_ws); [|now apply H'].
    apply hk_kv; [now right|now apply block_of_ws|now right|now apply gap_of_ws|]. apply H; [split; [exact Hd|cbn; intuition]|].
    intros _. apply ws_jquiet; [exact Hd|]. apply (@jquiet_app [44%N]); [constructor; [cbn; intuition|constructor]|]. apply ws_jquiet; [exact Ha|]. eapply members_jquiet; exact Ht.
Qed.
Lemma hval_inv_arr : forall s g f l, hval dec s g f (CArr l) -> harr dec s g f (CArr l).
Proof. intros s g f l H. inv H; trivial. match goal with H : hobj _ _ _ _ _ |- _ => inv H end. Qed.
Lemma hval_inv_obj : forall s g f l, hval dec s g f (CObj l) -> hobj dec s g f (CObj l).
Proof. intros s g f l H. inv H; trivial. match goal with H : harr _ _ _ _ _ |- _ => inv H end. Qed.
Theorem sjdoc_hdoc : forall s v, sjdoc s v -> jdoc f64_parse true true v s /\ hdoc dec s (as_hocon v).
Proof.
  intros s v (a & t & b & -> & Ha & Ht & Hb & Hv). split; [exists a, t, b; split; [reflexivity|]; split; [exact Ha|]; split; [now apply (proj1 sj_json) in Ht|exact Hb]|].
  assert (Q : jquiet (b ++ [])) by (apply ws_jquiet; [exact Hb|]; exists [], []; repeat split; constructor).
  assert (H : hval dec t b [] (as_hocon v)) by (eapply (proj1 sj_hocon); [exact Ht|now split|now intros _]).
  destruct Hv as [[l ->]|[m ->]]; cbn [as_hocon] in *.
  - apply hd_arr; [now apply gap_of_ws|now apply block_of_ws|now apply hval_inv_arr].
  - apply hd_obj; [now apply gap_of_ws|now apply block_of_ws|now apply hval_inv_obj|]. rewrite app_nil_r in Q. inv Ht.
    + change (brace_ok (123%N :: (w ++ bs "}") ++ b)). apply brace_cons; [unfold stop_char; cbn; intuition discriminate|]. apply jquiet_ok.
      rewrite <- app_assoc. apply ws_jquiet; [assumption|]. apply jquiet_app; [constructor; [cbn; intuition|constructor]|exact Q].
    + change (brace_ok (123%N :: (w ++ s ++ bs "}") ++ b)). apply brace_cons; [unfold stop_char; cbn; intuition discriminate|]. apply jquiet_ok.
      rewrite <- !app_assoc. apply ws_jquiet; [assumption|]. eapply members_jquiet; eassumption.
Qed.
End JsonHocon.
