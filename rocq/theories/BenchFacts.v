(** The benchmark's JSON readers against a grammar of documents, parametrised by the texts of strings and numbers. *)
From Verif Require Import Base Core Comb Closure RepFacts LitFacts Hoare Runs Text Agree Json JsonSpec JsonFacts Bench.
Set Implicit Arguments.
Local Open Scope string_scope.
Local Open Scope nat_scope.
Local Open Scope list_scope.

(** ** The grammar: a comma may follow the last element or member. *)
Section Grammar.
Variable F : Type.
Variable GS : list N -> list N -> Prop.
Variable GN : F -> list N -> Prop.
Inductive bval : json F -> list N -> Prop :=
| b_null : bval (JNull F) (bs "null")
| b_true : bval (JBool F true) (bs "true")
| b_false : bval (JBool F false) (bs "false")
| b_num : forall x s, GN x s -> bval (JNum x) s
| b_str : forall v s, GS v s -> bval (JStr F v) s
| b_arr0 : forall w, ws w -> bval (JArray []) (bs "[" ++ w ++ bs "]")
| b_arr : forall vs s t, belems vs s -> trailing false t -> bval (JArray vs) (bs "[" ++ s ++ t ++ bs "]")
| b_obj0 : forall w, ws w -> bval (JObject []) (bs "{" ++ w ++ bs "}")
| b_obj : forall ms s t, bmembers ms s -> trailing false t -> bval (JObject (hm_collect ms)) (bs "{" ++ s ++ t ++ bs "}")
with belems : list (json F) -> list N -> Prop :=
| be_one : forall v a s b, ws a -> bval v s -> ws b -> belems [v] (a ++ s ++ b)
| be_more : forall v a s b vs t, ws a -> bval v s -> ws b -> belems vs t -> belems (v :: vs) (a ++ s ++ b ++ bs "," ++ t)
with bmembers : list (list N * json F) -> list N -> Prop :=
| bm_one : forall k v a sk b c s d, ws a -> GS k sk -> ws b -> ws c -> bval v s -> ws d ->
    bmembers [(k, v)] (a ++ sk ++ b ++ bs ":" ++ c ++ s ++ d)
| bm_more : forall k v a sk b c s d ms t, ws a -> GS k sk -> ws b -> ws c -> bval v s -> ws d ->
    bmembers ms t -> bmembers ((k, v) :: ms) (a ++ sk ++ b ++ bs ":" ++ c ++ s ++ d ++ bs "," ++ t).
Definition bdoc (v : json F) (s : list N) : Prop := exists a t b, s = a ++ t ++ b /\ ws a /\ bval v t /\ ws b.
End Grammar.
Scheme bval_mut := Induction for bval Sort Prop
  with belems_mut := Induction for belems Sort Prop
  with bmembers_mut := Induction for bmembers Sort Prop.
Combined Scheme bval_ind3 from bval_mut, belems_mut, bmembers_mut.

(** ** Both readers read it *)
Section Values.
Variable F : Type.
Variable f64_parse : list N -> F + unit.
Variable lossy : list N -> list N.
Variable bytes : bool.
Variable GS : list N -> list N -> Prop.
Variable GN : F -> list N -> Prop.
Notation str := (b_string lossy bytes).
Notation num := (b_number f64_parse bytes).
Notation elm := (b_elm bytes).
Notation jval0 := (bval GS GN).
Notation jelems0 := (belems GS GN).
Notation jmembers0 := (bmembers GS GN).
Hypothesis string_ne : forall v s, GS v s -> exists t, s = 34%N :: t.
Hypothesis num_hd : forall x s, GN x s -> exists y t, s = y :: t /\ (y = 45%N \/ digit y).
Hypothesis h_str : hoare str GS.
Hypothesis h_num : hoare num GN.
Hypothesis a_str : forall v s rest, GS v s -> acc str s rest v.
Hypothesis r_str : forall l, match l with [] => True | y :: _ => y <> 34%N end -> rej str l false.
Hypothesis a_num : forall x s rest, GN x s -> after rest -> acc num s rest x.
Hypothesis r_num : forall x l, x <> 45%N -> ~ digit x -> rej num (x :: l) false.

Lemma stop_no_ws : forall l, stop l -> no_ws l.
Proof. intros [|x l] H; [exact I|]. cbn in H |- *. unfold is_ws. cbn. intuition congruence. Qed.
Lemma stop_after : forall w l, ws w -> stop l -> after (w ++ l).
Proof.
  intros w l Hw Hl. destruct Hw as [|x w Hx _]; cbn [app].
  - destruct l as [|y l]; [exact I|]. unfold after, stop in *. apply in_or_app. now right.
  - unfold after. apply in_or_app. now left.
Qed.
Lemma hd_no_ws : forall x, digit x \/ In x (34%N :: bs "-ntf[{") -> ~ is_ws x.
Proof. intros x H. unfold is_ws, digit in *. cbn in *. intuition (subst; try discriminate; lia). Qed.
Lemma nws_bracket : forall c, c = 93%N \/ c = 125%N -> ~ is_ws c.
Proof. intros c [->| ->]; unfold is_ws; cbn; intuition discriminate. Qed.
Lemma app_ne : forall (t s : list N), s <> [] -> t ++ s <> [].
Proof. intros t s H E. apply app_eq_nil in E. tauto. Qed.
Lemma h_el : forall c (R : N -> list N -> Prop), R c [c] -> hoare (elm c) R.
Proof. intros c R H. unfold b_elm. destruct bytes; [now apply h_elm|now apply h_elm_ref]. Qed.
Lemma a_el : forall x rest, acc (elm x) [x] rest x.
Proof. intros x rest. unfold b_elm. destruct bytes; [apply a_elm|apply a_elm_ref]. Qed.
Lemma r_el : forall x l, match l with [] => True | y :: _ => y <> x end -> rej (elm x) l false.
Proof. intros x l H. unfold b_elm. destruct bytes; [now apply r_elm|now apply r_elm_ref]. Qed.
(** First character of a value. *)
Lemma jval_hd : forall v s, jval0 v s -> exists x t, s = x :: t /\ (digit x \/ In x (34%N :: bs "-ntf[{")).
Proof.
  intros v s H. destruct H; try (eexists; eexists; split; [reflexivity|right; cbn; tauto]).
  - apply num_hd in H. destruct H as (y & t & -> & [->|Hy]); exists y || exists 45%N; exists t; (split; [reflexivity|]); [right; cbn; tauto|now left].
  - apply string_ne in H. destruct H as [t ->]. exists 34%N, t. split; [reflexivity|right; now left].
Qed.
Lemma jval_ne : forall v s, jval0 v s -> s <> [].
Proof. intros v s H. destruct (jval_hd H) as (x & t & -> & _). discriminate. Qed.

Definition q_value (v : json F) (s : list N) : Prop := exists s0 w, s = s0 ++ w /\ jval0 v s0 /\ ws w.
Definition q_sep (s : list N) : Prop := exists a b, s = a ++ bs "," ++ b /\ ws a /\ ws b.
Definition q_member (kv : list N * json F) (s : list N) : Prop := exists sk a b s0,
  s = sk ++ a ++ bs ":" ++ b ++ s0 /\ GS (fst kv) sk /\ ws a /\ ws b /\ q_value (snd kv) s0.
Lemma tail_elems : forall vs u, SepTail q_value (fun (_ : unit) => q_sep) vs u -> forall v s a b, q_value v s -> ws a -> ws b ->
  exists s' t, jelems0 (v :: vs) s' /\ trailing false t /\ a ++ s ++ u ++ b = s' ++ t.
Proof.
  intros vs u H. induction H as [|w t (c & d & -> & Hc & Hd)|w t v' s' vs u (c & d & -> & Hc & Hd) Hq _ IH]; intros v s a b (s0 & e & -> & Hv & He) Ha Hb.
  - exists (a ++ s0 ++ e ++ b), []. repeat split; [|now left|now rewrite app_nil_r, <- app_assoc].
    apply be_one; [exact Ha|exact Hv|now apply ws_app].
  - exists (a ++ s0 ++ e ++ c), (bs "," ++ d ++ b). repeat split.
    + apply be_one; [exact Ha|exact Hv|now apply ws_app].
    + right. split; [reflexivity|]. exists (d ++ b). split; [reflexivity|now apply ws_app].
    + now rewrite <- !app_assoc.
  - destruct (IH v' s' d b Hq Hd Hb) as (s1 & t & H1 & H2 & E).
    exists (a ++ s0 ++ (e ++ c) ++ bs "," ++ s1), t. repeat split; [|exact H2|].
    + apply be_more; [exact Ha|exact Hv|now apply ws_app|exact H1].
    + rewrite <- !app_assoc. now rewrite E.
Qed.
Lemma tail_members : forall ms u, SepTail q_member (fun (_ : unit) => q_sep) ms u -> forall m s a b, q_member m s -> ws a -> ws b ->
  exists s' t, jmembers0 (m :: ms) s' /\ trailing false t /\ a ++ s ++ u ++ b = s' ++ t.
Proof.
  intros vs u H. induction H as [|w t (c & d & -> & Hc & Hd)|w t v' s' vs u (c & d & -> & Hc & Hd) Hq _ IH];
    intros [k v] s a b (sk & f & g & sv & -> & Hk & Hf & Hg & (s0 & e & -> & Hv & He)) Ha Hb; cbn [fst snd] in *.
  - exists (a ++ sk ++ f ++ bs ":" ++ g ++ s0 ++ e ++ b), []. repeat split; [|now left|now rewrite app_nil_r, <- !app_assoc].
    apply bm_one; try assumption. now apply ws_app.
  - exists (a ++ sk ++ f ++ bs ":" ++ g ++ s0 ++ e ++ c), (bs "," ++ d ++ b). repeat split.
    + apply bm_one; try assumption. now apply ws_app.
    + right. split; [reflexivity|]. exists (d ++ b). split; [reflexivity|now apply ws_app].
    + now rewrite <- !app_assoc.
  - destruct (IH v' s' d b Hq Hd Hb) as (s1 & t & H1 & H2 & E).
    exists (a ++ sk ++ f ++ bs ":" ++ g ++ s0 ++ (e ++ c) ++ bs "," ++ s1), t. repeat split; [|exact H2|].
    + apply bm_more; try assumption. now apply ws_app.
    + rewrite <- !app_assoc. now rewrite E.
Qed.

Lemma h_bsep : hoare (b_sep bytes) (fun _ => q_sep).
Proof.
  eapply h_skip_right with (P := fun _ s => exists a, s = a ++ bs "," /\ ws a); [|apply h_space|].
  - eapply h_skip_left; [apply h_space|apply h_el with (R := fun _ s => s = bs ","); reflexivity|]. cbv beta. intros _ _ s t Hs ->. now exists s.
  - cbv beta. intros _ _ s t (a & -> & Ha) Ht. exists a, t. now rewrite <- app_assoc.
Qed.
Lemma h_bopen : forall c, hoare (p_skip_right (elm c) space) (fun _ s => exists a, s = [c] ++ a /\ ws a).
Proof. intros c. eapply h_skip_right; [apply h_el with (R := fun _ s => s = [c]); reflexivity|apply h_space|]. cbv beta. intros _ _ s t -> Ht. now exists t. Qed.
Lemma h_bclose : forall c, hoare (p_skip_left space (elm c)) (fun _ s => exists a, s = a ++ [c] /\ ws a).
Proof. intros c. eapply h_skip_left; [apply h_space|apply h_el with (R := fun _ s => s = [c]); reflexivity|]. cbv beta. intros _ _ s t Hs ->. now exists s. Qed.
Lemma q_value_ne : forall v s, q_value v s -> s <> [].
Proof. intros v s (s0 & w & -> & H & _) E. apply app_eq_nil in E. destruct E as [-> _]. now apply jval_ne in H. Qed.
Lemma q_member_ne : forall v s, q_member v s -> s <> [].
Proof. intros v s (sk & a & b & s0 & -> & H & _). apply string_ne in H. destruct H as [t ->]. discriminate. Qed.

Lemma h_sep_any : forall B (p : parser N B), hoare p (fun _ => q_sep) ->
  forall A (p' : parser N A) Q, hoare p' Q -> (forall v s, Q v s -> s <> []) ->
  hoare (p_many0_sep p' p) (fun vs s => vs = [] /\ s = [] \/ exists v s0 vs' t, vs = v :: vs' /\ s = s0 ++ t /\ Q v s0 /\ SepTail Q (fun (_ : unit) => q_sep) vs' t).
Proof.
  intros B p Hs A p' Q Hp Hne. eapply h_many0_sep; [exact Hp|exact Hs| | |].
  - intros v s w t HQ _. apply app_ne. eauto.
  - now left.
  - intros v s vs t HQ HT. right. exists v, s, vs, t. repeat split; [exact HQ|].
    clear -HT. induction HT; econstructor; eauto using tt.
    Unshelve. all: exact tt.
Qed.
Lemma h_array : forall value, hoare value q_value -> hoare (b_array bytes value) (fun vs s => jval0 (JArray vs) s).
Proof.
  intros value Hv.
  assert (K : forall a b vs t, ws a -> ws b ->
    (vs = [] /\ t = [] \/ exists v s0 vs' u, vs = v :: vs' /\ t = s0 ++ u /\ q_value v s0 /\ SepTail q_value (fun (_ : unit) => q_sep) vs' u) ->
    jval0 (JArray vs) (([91%N] ++ a) ++ t ++ b ++ [93%N])).
  { intros a b vs t Ha Hb [[-> ->]|(v & s0 & vs' & u & -> & -> & Hq & HT)].
    - cbn [app]. rewrite app_assoc. apply (@b_arr0 F GS GN (a ++ b)). now apply ws_app.
    - destruct (tail_elems HT Hq Ha Hb) as (s' & t & H1 & H2 & E).
      replace (([91%N] ++ a) ++ (s0 ++ u) ++ b ++ [93%N]) with (bs "[" ++ s' ++ t ++ bs "]"); [now apply b_arr|].
      rewrite <- !app_assoc. change (bs "[") with [91%N]. change (bs "]") with [93%N]. f_equal. rewrite !app_assoc, <- E. now rewrite <- !app_assoc. }
  unfold b_array. eapply h_surround; [apply h_bopen|apply h_sep_any; [apply h_bsep|apply h_lazy, Hv|apply q_value_ne]|apply h_bclose|].
    cbv beta. intros _ vs _ s t u (a & -> & Ha) HT (b & -> & Hb). now apply K.
Qed.

Lemma h_member : forall value, hoare value q_value -> hoare (b_member lossy bytes value) q_member.
Proof.
  intros value Hv. unfold b_member.
  eapply h_and with (P := fun k s => exists sk a b, s = sk ++ a ++ bs ":" ++ b /\ GS k sk /\ ws a /\ ws b); [|apply h_lazy, Hv|].
  - eapply h_skip_right with (P := fun k s => exists sk a, s = sk ++ a ++ bs ":" /\ GS k sk /\ ws a); [|apply h_space|].
    + eapply h_skip_right with (P := fun k s => exists sk a, s = sk ++ a /\ GS k sk /\ ws a);
        [|apply h_el with (R := fun _ s => s = bs ":"); reflexivity|].
      * eapply h_skip_right; [apply h_str|apply h_space|]. cbv beta. intros k _ s t Hs Ht. now exists s, t.
      * cbv beta. intros k _ s t (sk & a & -> & H1 & H2) ->. exists sk, a. now rewrite <- app_assoc.
    + cbv beta. intros k _ s t (sk & a & -> & H1 & H2) Ht. exists sk, a, t. now rewrite <- !app_assoc.
  - cbv beta. intros k v s t (sk & a & b & -> & H1 & H2 & H3) Ht. exists sk, a, b, t. now rewrite <- !app_assoc.
Qed.
Lemma h_object : forall value, hoare value q_value -> hoare (b_object lossy bytes value) (fun ms s => jval0 (JObject ms) s).
Proof.
  intros value Hv. unfold b_object.
  eapply h_map with (Q := fun ms s => jval0 (JObject (hm_collect ms)) s); [|auto].
  eapply h_surround; [apply h_bopen|apply h_sep_any; [apply h_bsep|apply h_member, Hv|apply q_member_ne]|apply h_bclose|].
  cbv beta. intros _ ms _ s t u (a & -> & Ha) [[-> ->]|(v & s0 & vs' & w & -> & -> & Hq & HT)] (b & -> & Hb).
  - cbn [app]. rewrite app_assoc. apply (@b_obj0 F GS GN (a ++ b)). now apply ws_app.
  - destruct (tail_members HT Hq Ha Hb) as (s' & t & H1 & H2 & E).
    replace (([chr "{"] ++ a) ++ (s0 ++ w) ++ b ++ [chr "}"]) with (bs "{" ++ s' ++ t ++ bs "}"); [now apply b_obj|].
    rewrite <- !app_assoc. change (bs "{") with [chr "{"]. change (bs "}") with [chr "}"]. f_equal. rewrite !app_assoc, <- E. now rewrite <- !app_assoc.
Qed.
Lemma h_value_step : forall value, hoare value q_value -> hoare (b_value_step f64_parse lossy bytes value) q_value.
Proof.
  intros value Hv. unfold b_value_step. eapply h_skip_right with (P := fun v s => jval0 v s); [|apply h_space|].
  - repeat apply h_or.
    + eapply h_map; [apply h_str|]. cbv beta. intros v s H. now constructor.
    + eapply h_map; [apply h_num|]. cbv beta. intros v s H. now constructor.
    + eapply h_map with (Q := fun (b : bool) s => s = if b then bs "true" else bs "false").
      * apply h_or; (eapply h_map; [apply h_lit|]); cbv beta; intros v s [_ ->]; reflexivity.
      * cbv beta. intros [] s ->; constructor.
    + eapply h_map; [apply h_lit|]. cbv beta. intros v s [_ ->]. constructor.
    + eapply h_map; [apply h_array, Hv|]. cbv beta. auto.
    + eapply h_map; [apply h_object, Hv|]. cbv beta. auto.
  - cbv beta. intros v _ s t Hs Ht. now exists s, t.
Qed.
(** The recursion with failure instead of divergence at its bound. *)
Fixpoint value_safe (n : nat) : parser N (json F) :=
  match n with
  | 0 => p_failed Incomplete Uncommitted
  | S n' => b_value_step f64_parse lossy bytes (value_safe n')
  end.
Lemma h_value_safe : forall n, hoare (value_safe n) q_value.
Proof. induction n as [|n IH]; [apply h_failed|]. now apply h_value_step. Qed.

Lemma elm_out : forall c (inp : list N) off v n, length inp < off -> elm c inp off <> Success v n.
Proof.
  intros c inp off v n H. unfold b_elm. destruct bytes; [|now apply elm_ref_out]. unfold p_elm, p_elm_eq, p_map.
  destruct (p_elm_ref_eq N.eqb c inp off) as [w k| | |] eqn:E; try discriminate. now apply elm_ref_out in E.
Qed.
Lemma consumes_bopen : forall c, consumes (p_skip_right (elm c) space).
Proof.
  intros c. eapply hoare_consumes; [apply h_bopen|intros v s (a & -> & _); discriminate|].
  intros inp off Ho v n E. unfold p_skip_right in E. destruct (elm c inp off) eqn:E1; try discriminate. now apply elm_out in E1.
Qed.
Lemma ag_value_step : forall n p q, agree n p q -> agree (S n) (b_value_step f64_parse lossy bytes p) (b_value_step f64_parse lossy bytes q).
Proof.
  intros n p q H. unfold b_value_step. apply ag_skip_right; [|apply ag_refl].
  repeat (apply ag_or; [|apply ag_map]); try apply ag_refl.
  - unfold b_array. apply ag_surround_S; [apply consumes_bopen|]. apply ag_repeat_sep, ag_lazy, H.
  - unfold b_object. apply ag_map, ag_surround_S; [apply consumes_bopen|]. apply ag_repeat_sep. unfold b_member. apply ag_and; [apply ag_refl|]. apply ag_lazy, H.
Qed.
Lemma ag_value : forall n m, n <= m -> agree n (b_value f64_parse lossy bytes m) (value_safe n).
Proof.
  induction n as [|n IH]; intros m Hm.
  - intros inp off H. lia.
  - destruct m as [|m]; [lia|]. cbn [b_value value_safe]. apply ag_value_step, IH. lia.
Qed.
(** Fuel one more than the length of the input is enough, and more fuel changes nothing. *)
Lemma bench_fuel_enough : forall inp off fuel, length inp < fuel -> bench_fuel f64_parse lossy bytes fuel inp off = bench_p f64_parse lossy bytes inp off.
Proof.
  intros inp off fuel H. unfold bench_p, bench_fuel.
  assert (G : agree (S (length inp)) (b_value f64_parse lossy bytes fuel) (b_value f64_parse lossy bytes (S (length inp)))).
  { intros i o Hl. rewrite (ag_value H), (ag_value (le_n _)) by exact Hl. reflexivity. }
  apply (ag_skip_right (ag_skip_left (ag_refl space) G) (ag_refl _)). lia.
Qed.
Lemma h_bench : forall inp, match bench_p f64_parse lossy bytes inp 0 with
  | Success v n => n = length inp /\ bdoc GS GN v inp
  | Failure _ _ => True
  | Panic | Diverge => False
  end.
Proof.
  intros inp. unfold bench_p, bench_fuel.
  assert (G : agree (S (length inp)) (b_value f64_parse lossy bytes (S (length inp))) (value_safe (S (length inp)))) by (apply ag_value; lia).
  rewrite (ag_skip_right (ag_skip_left (ag_refl space) G) (ag_refl p_end)) by lia.
  assert (H : hoare (p_skip_left space (value_safe (S (length inp)))) (bdoc GS GN)).
  { eapply h_skip_left; [apply h_space|apply h_value_safe|]. cbv beta. intros _ v s t Hs (s0 & w & -> & Hv & Hw). now exists s, s0, w. }
  specialize (H inp 0 ltac:(lia)). unfold p_skip_right.
  destruct (p_skip_left space (value_safe (S (length inp))) inp 0) as [v n|e c| |]; try exact H.
  destruct H as [L H]. cbn in L. pose proof (@h_end N (fun _ _ => True) I inp (0 + n) L) as He.
  destruct (p_end inp (0 + n)) as [u m|e c| |] eqn:E; try exact He.
  unfold p_end in E. rewrite ps_input_ok in E by exact L. destruct (skipn (0 + n) inp) eqn:Es; [|discriminate]. inv E.
  cbn in L, Es, H. assert (n = length inp) as ->.
  { pose proof (skipn_length n inp) as K. rewrite Es in K. cbn in K. lia. }
  rewrite firstn_all in H. split; [lia|exact H].
Qed.

(** ** Every text of the lenient grammar is accepted. *)
Notation value := (b_value f64_parse lossy bytes).
Lemma jval_no_ws : forall v s r, jval0 v s -> no_ws (s ++ r).
Proof. intros v s r H. destruct (jval_hd H) as (x & t & -> & Hx). cbn. now apply hd_no_ws. Qed.

Lemma r_array : forall (p : parser N (json F)) c l, c <> 91%N -> rej (b_array bytes p) (c :: l) false.
Proof. intros p c l H. unfold b_array. apply r_surround1, r_skip_right1. now apply r_el. Qed.
Lemma r_object : forall (p : parser N (json F)) c l, c <> 123%N -> rej (b_object lossy bytes p) (c :: l) false.
Proof. intros p c l H. unfold b_object. apply r_map, r_surround1, r_skip_right1. now apply r_el. Qed.
Lemma r_value : forall n c l, c = 93%N \/ c = 125%N -> rej (value (S n)) (c :: l) false.
Proof.
  intros n c l H. cbn [b_value]. unfold b_value_step. apply r_skip_right1.
  repeat apply r_or; apply r_map.
  - apply r_str. lia.
  - apply r_num; unfold digit; lia.
  - apply r_or; apply r_map, r_lit; intros ->; destruct H; discriminate.
  - apply r_lit. intros ->. destruct H; discriminate.
  - apply r_array. lia.
  - apply r_object. lia.
Qed.
Lemma r_member : forall (p : parser N (json F)) c l, c <> 34%N -> rej (b_member lossy bytes p) (c :: l) false.
Proof. intros p c l H. unfold b_member. apply r_and1, r_skip_right1, r_skip_right1, r_skip_right1, r_str. exact H. Qed.

(** A separator parser. *)
Definition good_sep {B} (sep : parser N B) : Prop :=
  (forall a rest, ws a -> no_ws rest -> exists w, acc sep (bs "," ++ a) rest w) /\
  (forall c l, c = 93%N \/ c = 125%N -> rej sep (c :: l) false).
Lemma good_bsep : good_sep (b_sep bytes).
Proof.
  split.
  - intros a rest Ha Hr. eexists. eapply a_skip_right; [|now apply a_space]. change (bs ",") with ([] ++ [chr ","]).
    eapply a_skip_left; [apply a_space; [constructor|cbn; unfold is_ws; cbn; intuition discriminate]|apply a_el].
  - intros c l H. apply r_skip_right1. change (c :: l) with ([] ++ c :: l).
    eapply r_skip_left2; [apply a_space; [constructor|cbn; unfold is_ws; cbn; intuition congruence]|apply r_el]. intros ->. destruct H; discriminate.
Qed.

Definition c_val (v : json F) (s : list N) : Prop := forall n w rest, length s < n -> ws w -> stop rest -> acc (value n) (s ++ w) rest v.
Definition c_elems (vs : list (json F)) (s : list N) : Prop := exists v vs' a s1 t, vs = v :: vs' /\ s = a ++ s1 ++ t /\ ws a /\
  (exists x r, s1 = x :: r /\ ~ is_ws x) /\
  forall n B (sep : parser N B) rest, length s < n -> good_sep sep -> stop rest ->
    acc (value n) s1 (t ++ rest) v /\ schain (value n) sep t rest vs'.
Definition c_members (ms : list (list N * json F)) (s : list N) : Prop := exists m ms' a s1 t, ms = m :: ms' /\ s = a ++ s1 ++ t /\ ws a /\
  (exists x r, s1 = x :: r /\ ~ is_ws x) /\
  forall n B (sep : parser N B) rest, length s < n -> good_sep sep -> stop rest ->
    acc (b_member lossy bytes (value n)) s1 (t ++ rest) m /\ schain (b_member lossy bytes (value n)) sep t rest ms'.

(** One member. *)
Lemma a_member : forall n k v sk b c s d rest, GS k sk -> ws b -> ws c -> jval0 v s -> ws d -> stop rest ->
  acc (value n) (s ++ d) rest v -> acc (b_member lossy bytes (value n)) (sk ++ b ++ bs ":" ++ c ++ s ++ d) rest (k, v).
Proof.
  intros n k v sk b c s d rest Hk Hb Hc Hv Hd Hr Ha. unfold b_member.
  replace (sk ++ b ++ bs ":" ++ c ++ s ++ d) with ((((sk ++ b) ++ bs ":") ++ c) ++ (s ++ d)) by now rewrite <- !app_assoc.
  eapply a_and; [|apply a_lazy; exact Ha].
  eapply a_skip_right; [eapply a_skip_right; [eapply a_skip_right; [now apply a_str|]|apply a_el]|].
  - apply a_space; [exact Hb|]. cbn. unfold is_ws. cbn. intuition discriminate.
  - apply a_space; [exact Hc|]. rewrite <- app_assoc. eapply jval_no_ws. exact Hv.
Qed.
(** One step of a separated list. *)
Lemma list_step : forall A B (p : parser N A) (sep : parser N B) a s1 t rest v vs,
  good_sep sep -> ws a -> (exists x r, s1 = x :: r /\ ~ is_ws x) -> acc p s1 (t ++ rest) v -> schain p sep t rest vs ->
  schain p sep (bs "," ++ a ++ s1 ++ t) rest (v :: vs).
Proof.
  intros A B p sep a s1 t rest v vs [Hs _] Ha (x & r & -> & Hx) H1 H2. rewrite app_assoc.
  destruct (Hs a ((x :: r) ++ t ++ rest) Ha Hx) as [w Hw]. econstructor; [exact Hw|exact H1|discriminate|exact H2].
Qed.

(** The brackets. *)
Lemma a_bopen : forall c a rest, ws a -> no_ws rest -> exists w, acc (p_skip_right (elm c) space) ([c] ++ a) rest w.
Proof. intros c a rest Ha Hr. eexists. eapply a_skip_right; [apply a_el|now apply a_space]. Qed.
Lemma a_bclose : forall c rest, ~ is_ws c -> exists w, acc (p_skip_left space (elm c)) [c] rest w.
Proof. intros c rest Hc. eexists. change [c] with ([] ++ [c]). eapply a_skip_left; [apply a_space; [constructor|exact Hc]|apply a_el]. Qed.
(** A bracketed list: the elements [v :: vs] spelled by [a ++ s1 ++ t], then what may trail, then the bracket [c]. *)
Lemma a_list : forall A B C D (p : parser N A) (sep : parser N B) (op : parser N C) (cl : parser N D) o c a s1 t tr rest v vs,
  good_sep sep -> (c = 93%N \/ c = 125%N) -> ~ is_ws c ->
  (forall a rest, ws a -> no_ws rest -> exists w, acc op ([o] ++ a) rest w) -> (forall rest, exists w, acc cl [c] rest w) ->
  (forall l, rej p (c :: l) false) -> ws a -> (exists x r, s1 = x :: r /\ ~ is_ws x) -> trailing false tr ->
  acc p s1 (t ++ tr ++ c :: rest) v -> schain p sep t (tr ++ c :: rest) vs ->
  acc (p_surround op (p_many0_sep p sep) cl) ([o] ++ (a ++ s1 ++ t) ++ tr ++ [c]) rest (v :: vs).
Proof.
  intros A B C D p sep op cl o c a s1 t tr rest v vs Hs Hc Hcw Ho Hcl Hr Ha (x & r & E1 & Hx) Ht H1 H2.
  replace ([o] ++ (a ++ s1 ++ t) ++ tr ++ [c]) with (([o] ++ a) ++ (s1 ++ t ++ tr) ++ [c]) by now rewrite <- !app_assoc.
  destruct (Hcl rest) as [wc Hwc]. destruct (Ho a ((s1 ++ t ++ tr) ++ [c] ++ rest) Ha) as [wo Hwo].
  { rewrite E1. exact Hx. }
  eapply a_surround; [exact Hwo| |exact Hwc].
  destruct Ht as [->|(_ & w & -> & Hw)].
  - rewrite app_nil_r. eapply a_repeat_sep with (c := false); [exact H1|exact H2|apply Hs, Hc|lia].
  - destruct Hs as [Hs1 Hs2]. destruct (Hs1 w (c :: rest) Hw Hcw) as [wd Hwd].
    eapply a_repeat_sep_dangling with (c := false); [| |exact Hwd|apply Hr|lia].
    + exact H1.
    + exact H2.
Qed.
Lemma a_array : forall n a s1 t tr rest v vs, ws a -> (exists x r, s1 = x :: r /\ ~ is_ws x) -> trailing false tr ->
  (forall B (sep : parser N B) rest, good_sep sep -> stop rest -> acc (value (S n)) s1 (t ++ rest) v /\ schain (value (S n)) sep t rest vs) ->
  acc (b_array bytes (value (S n))) (bs "[" ++ (a ++ s1 ++ t) ++ tr ++ bs "]") rest (v :: vs).
Proof.
  intros n a s1 t tr rest v vs Ha Hx Ht H.
  assert (Hst : stop (tr ++ 93%N :: rest)) by (destruct Ht as [->|(_ & w & -> & _)]; cbn; tauto).
  pose proof (fun l => @r_value n 93%N l (or_introl eq_refl)) as Hrv. unfold b_array.
  - destruct (H _ _ _ good_bsep Hst) as [H1 H2]. eapply a_list; try eassumption.
    + apply good_bsep.
    + now left.
    + apply nws_bracket. now left.
    + intros. now apply a_bopen.
    + intros. apply a_bclose, nws_bracket. now left.
Qed.
Lemma a_array0 : forall n w rest, ws w -> acc (b_array bytes (value (S n))) (bs "[" ++ w ++ bs "]") rest [].
Proof.
  intros n w rest Hw. assert (Hn : ~ is_ws 93%N) by (apply nws_bracket; now left).
  replace (bs "[" ++ w ++ bs "]") with (([91%N] ++ w) ++ [] ++ [93%N]) by now rewrite <- app_assoc.
  pose proof (fun l => @r_value n 93%N l (or_introl eq_refl)) as Hrv. unfold b_array.
  - destruct (@a_bopen 91%N w (93%N :: rest) Hw Hn) as [wo Ho]. destruct (@a_bclose 93%N rest Hn) as [wc Hc].
    eapply a_surround; [exact Ho| |exact Hc]. eapply a_repeat_sep_none. apply r_lazy, Hrv.
Qed.
Lemma a_object : forall n a s1 t tr rest m ms, ws a -> (exists x r, s1 = x :: r /\ ~ is_ws x) -> trailing false tr ->
  (forall B (sep : parser N B) rest, good_sep sep -> stop rest ->
     acc (b_member lossy bytes (value n)) s1 (t ++ rest) m /\ schain (b_member lossy bytes (value n)) sep t rest ms) ->
  acc (b_object lossy bytes (value n)) (bs "{" ++ (a ++ s1 ++ t) ++ tr ++ bs "}") rest (hm_collect (m :: ms)).
Proof.
  intros n a s1 t tr rest v vs Ha Hx Ht H.
  assert (Hst : stop (tr ++ 125%N :: rest)) by (destruct Ht as [->|(_ & w & -> & _)]; cbn; tauto).
  unfold b_object. eapply a_map_eq; [|reflexivity].
  destruct (H _ _ _ good_bsep Hst) as [H1 H2]. eapply a_list; try eassumption.
  - apply good_bsep.
  - now right.
  - apply nws_bracket. now right.
  - intros. now apply a_bopen.
  - intros. apply a_bclose, nws_bracket. now right.
  - intros l. apply r_member. discriminate.
Qed.
Lemma a_object0 : forall n w rest, ws w -> acc (b_object lossy bytes (value n)) (bs "{" ++ w ++ bs "}") rest [].
Proof.
  intros n w rest Hw. assert (Hn : ~ is_ws 125%N) by (apply nws_bracket; now right).
  replace (bs "{" ++ w ++ bs "}") with (([123%N] ++ w) ++ [] ++ [125%N]) by now rewrite <- app_assoc.
  unfold b_object. eapply a_map_eq with (v := []); [|reflexivity].
  destruct (@a_bopen 123%N w (125%N :: rest) Hw Hn) as [wo Ho]. destruct (@a_bclose 125%N rest Hn) as [wc Hc].
  eapply a_surround; [exact Ho| |exact Hc]. eapply a_repeat_sep_none. apply r_member. discriminate.
Qed.
Ltac rejs := repeat apply r_or; apply r_map; first
  [apply r_str; discriminate|apply r_num; [discriminate|unfold digit; cbn; lia]|apply r_or; apply r_map, r_lit; discriminate|apply r_lit; discriminate|apply r_array; discriminate|apply r_object; discriminate].
Lemma complete3 :
  (forall v s, jval0 v s -> c_val v s) /\ (forall vs s, jelems0 vs s -> c_elems vs s) /\ (forall ms s, jmembers0 ms s -> c_members ms s).
Proof.
  apply (@bval_ind3 F GS GN (fun v s _ => c_val v s) (fun vs s _ => c_elems vs s) (fun ms s _ => c_members ms s)).
  - intros [|n] w rest L Hw Hr; [lia|]. cbn [b_value]. unfold b_value_step. eapply a_skip_right; [|now apply a_space, stop_no_ws].
    do 2 apply a_or1. apply a_or2; [rejs|]. eapply a_map_eq; [apply a_lit|reflexivity].
  - intros [|n] w rest L Hw Hr; [lia|]. cbn [b_value]. unfold b_value_step. eapply a_skip_right; [|now apply a_space, stop_no_ws].
    do 3 apply a_or1. apply a_or2; [rejs|]. eapply a_map_eq with (v := true); [|reflexivity]. apply a_or1. eapply a_map_eq; [apply a_lit|reflexivity].
  - intros [|n] w rest L Hw Hr; [lia|]. cbn [b_value]. unfold b_value_step. eapply a_skip_right; [|now apply a_space, stop_no_ws].
    do 3 apply a_or1. apply a_or2; [rejs|]. eapply a_map_eq with (v := false); [|reflexivity].
    apply a_or2; [apply r_map, r_lit; discriminate|]. eapply a_map_eq; [apply a_lit|reflexivity].
  - intros x s Hg [|n] w rest L Hw Hr; [lia|]. cbn [b_value]. unfold b_value_step. eapply a_skip_right; [|now apply a_space, stop_no_ws].
    do 4 apply a_or1. apply a_or2.
    + destruct (num_hd Hg) as (y & t & -> & Hy). unfold digit in Hy. apply r_map, r_str. cbn. lia.
    + eapply a_map_eq; [|reflexivity]. apply a_num; [exact Hg|]. now apply stop_after.
  - intros v s Hg [|n] w rest L Hw Hr; [lia|]. cbn [b_value]. unfold b_value_step. eapply a_skip_right; [|now apply a_space, stop_no_ws].
    do 5 apply a_or1. eapply a_map_eq; [|reflexivity]. now apply a_str.
  - intros w' Hw' [|[|n]] w rest L Hw Hr; [lia|cbn in L; lia|]. cbn [b_value]. unfold b_value_step at 1. eapply a_skip_right; [|now apply a_space, stop_no_ws].
    apply a_or1. apply a_or2; [rejs|]. eapply a_map_eq; [|reflexivity]. now apply a_array0.
  - intros vs s t He IH Ht [|[|n]] w rest L Hw Hr; [lia|cbn in L; lia|]. cbn [b_value]. unfold b_value_step at 1. eapply a_skip_right; [|now apply a_space, stop_no_ws].
    apply a_or1. apply a_or2; [rejs|]. eapply a_map_eq; [|reflexivity].
    destruct IH as (v & vs' & a & s1 & u & -> & -> & Ha & Hx & IH).
    apply (@a_array n); try assumption. intros B sep rest' Hs Hr'. apply IH; try assumption.
    rewrite !app_length in *. cbn [List.length bs] in L. unfold bs in L. cbn in L. lia.
  - intros w' Hw' [|n] w rest L Hw Hr; [lia|]. cbn [b_value]. unfold b_value_step at 1. eapply a_skip_right; [|now apply a_space, stop_no_ws].
    apply a_or2; [rejs|]. eapply a_map_eq; [|reflexivity]. now apply a_object0.
  - intros ms s t He IH Ht [|n] w rest L Hw Hr; [lia|]. cbn [b_value]. unfold b_value_step at 1. eapply a_skip_right; [|now apply a_space, stop_no_ws].
    apply a_or2; [rejs|]. eapply a_map_eq; [|reflexivity].
    destruct IH as (m & ms' & a & s1 & u & -> & -> & Ha & Hx & IH).
    apply a_object; try assumption. intros B sep rest' Hs Hr'. apply IH; try assumption.
    rewrite !app_length in *. cbn in L. lia.
  - intros v a s b Ha Hv IH Hb. exists v, [], a, (s ++ b), []. repeat split.
    + now rewrite app_nil_r.
    + exact Ha.
    + destruct (jval_hd Hv) as (x & t & -> & Hx). exists x, (t ++ b). split; [reflexivity|now apply hd_no_ws].
    + cbn [app]. apply IH; [|exact Hb|assumption]. rewrite !app_length in *. lia.
    + constructor.
  - intros v a s b vs t Ha Hv IH Hb He (v2 & vs2 & a2 & s2 & t2 & -> & -> & Ha2 & Hx2 & IH2).
    exists v, (v2 :: vs2), a, (s ++ b), (bs "," ++ a2 ++ s2 ++ t2).
    split; [reflexivity|]. split; [now rewrite <- !app_assoc|]. split; [exact Ha|]. split.
    { destruct (jval_hd Hv) as (x & t & -> & Hx). exists x, (t ++ b). split; [reflexivity|now apply hd_no_ws]. }
    intros n B sep rest L Hs Hr. rewrite !app_length in L. split.
    + rewrite <- app_assoc. apply IH; [lia|exact Hb|cbn; tauto].
    + destruct (IH2 n B sep rest) as [K1 K2]; [rewrite !app_length; lia|exact Hs|exact Hr|]. now apply list_step.
  - intros k v a sk b c s d Ha Hk Hb Hc Hv IH Hd. exists (k, v), [], a, (sk ++ b ++ bs ":" ++ c ++ s ++ d), []. repeat split.
    + now rewrite app_nil_r.
    + exact Ha.
    + destruct (string_ne Hk) as (t & ->). exists 34%N, (t ++ b ++ bs ":" ++ c ++ s ++ d). split; [reflexivity|].
      apply hd_no_ws. right. now left.
    + cbn [app]. apply a_member; try assumption. apply IH; try assumption. rewrite !app_length in *. lia.
    + constructor.
  - intros k v a sk b c s d ms t Ha Hk Hb Hc Hv IH Hd Hm (m2 & ms2 & a2 & s2 & t2 & -> & -> & Ha2 & Hx2 & IH2).
    exists (k, v), (m2 :: ms2), a, (sk ++ b ++ bs ":" ++ c ++ s ++ d), (bs "," ++ a2 ++ s2 ++ t2).
    split; [reflexivity|]. split; [now rewrite <- !app_assoc|]. split; [exact Ha|]. split.
    { destruct (string_ne Hk) as (t & ->). exists 34%N, (t ++ b ++ bs ":" ++ c ++ s ++ d). split; [reflexivity|].
      apply hd_no_ws. right. now left. }
    intros n B sep rest L Hs Hr. rewrite !app_length in L. split.
    + apply a_member; try assumption; [cbn; tauto|]. apply IH; [lia|exact Hd|cbn; tauto].
    + destruct (IH2 n B sep rest) as [K1 K2]; [rewrite !app_length; lia|exact Hs|exact Hr|]. now apply list_step.
Qed.
Lemma bench_complete : forall v s, bdoc GS GN v s -> bench_p f64_parse lossy bytes s 0 = Success v (length s).
Proof.
  intros v s (a & t & b & -> & Ha & Hv & Hb). unfold bench_p.
  assert (A : acc (bench_fuel f64_parse lossy bytes (S (length (a ++ t ++ b)))) (a ++ t ++ b) [] v).
  { unfold bench_fuel. rewrite <- (app_nil_r (a ++ t ++ b)) at 2. eapply a_skip_right; [|apply a_end].
    eapply a_skip_left; [apply a_space; [exact Ha|]|].
    - rewrite <- app_assoc. eapply jval_no_ws. exact Hv.
    - apply (proj1 complete3); [exact Hv| |exact Hb|exact I]. rewrite !app_length. lia. }
  specialize (A []). cbn [app List.length] in A. now rewrite app_nil_r in A.
Qed.
End Values.
(** ** Numbers of the byte reader *)
Definition byte_digit (b : N) : bool := (48 <=? b)%N && (b <=? 57)%N.
Lemma bdig_iff : forall x, byte_digit x = true <-> digit x.
Proof. intros x. unfold byte_digit, digit. rewrite andb_true_iff, !N.leb_le. reflexivity. Qed.
Lemma bh_digits0 : hoare (p_many0 digit_byte) (fun _ s => Forall digit s).
Proof.
  eapply h_many0 with (Q := fun x s => s = [x] /\ digit x).
  - apply h_elm_pred. intros x Hx. split; [reflexivity|now apply bdig_iff].
  - intros v s [-> _]. discriminate.
  - intros vs s H. induction H as [|v s vs t [-> Hv] _ IH]; [constructor|]. constructor; [exact Hv|exact IH].
Qed.
Lemma bh_digits1 : hoare (p_many1 digit_byte) (fun _ s => digits1 s).
Proof.
  eapply h_many1 with (Q := fun x s => s = [x] /\ digit x).
  - apply h_elm_pred. intros x Hx. split; [reflexivity|now apply bdig_iff].
  - intros v s [-> _]. discriminate.
  - intros vs s H Hne. split.
    + clear Hne. induction H as [|v s vs t [-> Hv] _ IH]; [constructor|]. constructor; [exact Hv|exact IH].
    + destruct H as [|v s vs t [-> _] _]; [congruence|discriminate].
Qed.
Lemma bh_integer : hoare integer_byte (fun _ s => g_int s).
Proof.
  unfold integer_byte. apply h_or.
  - eapply h_skip_right with (P := fun x s => s = [x] /\ (49 <= x <= 57)%N); [|apply bh_digits0|].
    + apply h_elm_pred. intros x Hx. split; [reflexivity|]. now apply andb_true_iff in Hx; rewrite !N.leb_le in Hx.
    + intros x _ s t [-> Hx] Ht. right. now exists x, t.
  - apply h_elm. now left.
Qed.
Lemma bh_frac : hoare frac_byte (fun _ s => g_frac s).
Proof.
  unfold frac_byte. eapply h_and with (P := fun _ s => s = bs "."); [apply h_elm; reflexivity|apply bh_digits1|].
  intros a b s t -> Ht. now exists t.
Qed.
Lemma bh_expo : hoare expo_byte (fun _ s => g_exp s).
Proof.
  unfold expo_byte. eapply h_and with (P := fun _ s => exists e sg, s = e ++ sg /\ (e = bs "e" \/ e = bs "E") /\ maybe (fun u => u = bs "+" \/ u = bs "-") sg);
    [|apply bh_digits1|].
  - eapply h_and with (P := fun _ s => s = bs "e" \/ s = bs "E").
    + apply h_elm_of. cbn. intros x [<-|[<-|[]]]; auto.
    + apply h_opt_any with (P := fun u => u = bs "+" \/ u = bs "-"). apply h_elm_of. cbn. intros x [<-|[<-|[]]]; auto.
    + cbv beta. intros _ _ s t Hs Ht. now exists s, t.
  - cbv beta. intros _ _ s t (e & sg & -> & He & Hs) Ht. exists e, sg, t. now rewrite <- app_assoc.
Qed.
Lemma ba_digits : forall s rest, Forall digit s -> hd_not byte_digit rest -> acc (p_many0 digit_byte) s rest s.
Proof.
  intros s rest H Hr. eapply a_many0.
  - apply chain_class with (f := byte_digit); [intros x r Hx; now apply a_elm_pred|].
    eapply Forall_impl; [|exact H]. intros x. apply bdig_iff.
  - now apply r_elm_pred.
Qed.
Lemma ba_digits1 : forall s rest, digits1 s -> hd_not byte_digit rest -> acc (p_many1 digit_byte) s rest s.
Proof.
  intros s rest [H Hne] Hr. eapply a_many1.
  - apply chain_class with (f := byte_digit); [intros x r Hx; now apply a_elm_pred|].
    eapply Forall_impl; [|exact H]. intros x. apply bdig_iff.
  - now apply r_elm_pred.
  - exact Hne.
Qed.
Lemma ba_integer : forall i rest, g_int i -> hd_not byte_digit rest -> exists v, acc integer_byte i rest v.
Proof.
  intros i rest [->|(x & t & -> & Hx & Ht)] Hr; unfold integer_byte.
  - eexists. apply a_or2; [|apply a_elm]. eapply r_skip_right1. apply r_elm_pred. reflexivity.
  - eexists. apply a_or1. change (x :: t) with ([x] ++ t). eapply a_skip_right; [|apply ba_digits; eassumption].
    apply a_elm_pred. apply andb_true_iff. rewrite !N.leb_le. exact Hx.
Qed.
Lemma number_utf8 : forall s, g_number s -> from_utf8 s = inl s.
Proof.
  intros s (m & i & f & e & -> & Hm & Hi & Hf & He). apply ascii_utf8.
  assert (D : forall s, Forall digit s -> ascii s) by (intros t H; eapply Forall_impl; [|exact H]; unfold digit; intros; lia).
  assert (A : forall a b, ascii a -> ascii b -> ascii (a ++ b)) by (intros a b Ha Hb; now apply Forall_app).
  assert (L : forall t, forallb (fun x => x <? 128)%N t = true -> ascii t).
  { intros t H. rewrite forallb_forall in H. apply Forall_forall. intros x Hx. now apply N.ltb_lt, H. }
  apply A; [|apply A; [|apply A]].
  - destruct Hm as [->|<-]; [constructor|now apply L].
  - destruct Hi as [->|(x & t & -> & Hx & Ht)]; [now apply L|]. constructor; [lia|now apply D].
  - destruct Hf as [->|(t & -> & [Ht _])]; [constructor|]. apply A; [now apply L|now apply D].
  - destruct He as [->|(e' & sg & t & -> & E1 & E2 & [Ht _])]; [constructor|]. apply A; [destruct E1 as [->| ->]; now apply L|].
    apply A; [|now apply D]. destruct E2 as [->|[->| ->]]; [constructor|now apply L|now apply L].
Qed.
Section Number.
Variable F : Type.
Variable f64_parse : list N -> F + unit.
(** f64::from_str reads every JSON number. *)
Hypothesis f64_total : forall s, g_number s -> exists x, f64_parse s = inl x.
Definition num_text (x : F) (s : list N) : Prop := g_number s /\ f64_parse s = inl x.
Lemma bh_number : hoare (number_byte f64_parse) num_text.
Proof.
  unfold number_byte. eapply h_map_panic with (Q := fun v s => v = s /\ g_number s).
  { eapply h_collect with (Q := fun _ s => g_number s); [|auto].
  eapply h_and with (P := fun _ s => exists m i f, s = m ++ i ++ f /\ maybe (eq (bs "-")) m /\ g_int i /\ maybe g_frac f);
    [|apply h_opt_any, bh_expo|].
  - eapply h_and with (P := fun _ s => exists m i, s = m ++ i /\ maybe (eq (bs "-")) m /\ g_int i); [|apply h_opt_any, bh_frac|].
    + eapply h_and; [apply h_opt_any with (P := eq (bs "-")); apply h_elm; reflexivity|apply bh_integer|].
      cbv beta. intros _ _ s t Hs Ht. now exists s, t.
    + cbv beta. intros _ _ s t (m & i & -> & Hm & Hi) Ht. exists m, i, t. now rewrite <- app_assoc.
  - cbv beta. intros _ _ s t (m & i & f & -> & Hm & Hi & Hf) Ht. exists m, i, f, t. now rewrite <- !app_assoc. }
  intros v s [-> H]. destruct (f64_total H) as [x Hx]. exists x. unfold unwrap_number. rewrite (number_utf8 H), Hx. now repeat split.
Qed.
Lemma ba_number : forall x s rest, num_text x s -> after rest -> acc (number_byte f64_parse) s rest x.
Proof.
  intros x s rest [Hg Hx] Hr. unfold number_byte.
  eapply a_map_panic with (v := s); [|unfold unwrap_number; now rewrite (number_utf8 Hg), Hx]. clear Hx x.
  destruct Hg as (m & i & f & e & -> & Hm & Hi & Hf & He).
  assert (He' : exists v, acc (p_opt expo_byte) e rest v).
  { eapply a_opt_any with (c := false); [exact He| |].
    - intros (e' & sg & t & -> & E1 & E2 & E3). unfold expo_byte. rewrite app_assoc.
      assert (Ds : hd_not byte_digit rest) by (apply after_hd; [exact Hr|reflexivity]).
      assert (V : exists v, acc (p_opt (p_elm_of (bs "+-"))) sg (t ++ rest) v).
      { eapply a_opt_any with (c := false); [exact E2| |].
        - intros [->| ->]; eexists; apply a_elm_of; cbn; tauto.
        - intros _. apply r_elm_of. destruct E3 as [E3 Hne]. destruct E3 as [|y t Hy _]; [congruence|]. cbn. unfold digit in Hy. lia. }
      destruct V as [v V]. destruct E1 as [->| ->]; eexists; (eapply a_and; [eapply a_and; [apply a_elm_of; cbn; tauto|exact V]|now apply ba_digits1]).
    - intros _. eapply r_and1, r_and1, r_elm_of. eapply after_notin; [exact Hr|]. lits. }
  destruct He' as [ve He'].
  assert (Hd : hd_not byte_digit (e ++ rest)).
  { destruct He as [->|(e' & sg & t & -> & [->| ->] & _)]; [apply after_hd; [exact Hr|reflexivity]|reflexivity|reflexivity]. }
  assert (Hf' : exists v, acc (p_opt frac_byte) f (e ++ rest) v).
  { eapply a_opt_any with (c := false); [exact Hf| |].
    - intros (t & -> & Ht). eexists. unfold frac_byte. eapply a_and; [apply a_elm|]. now apply ba_digits1.
    - intros _. eapply r_and1, r_elm.
      destruct He as [->|(e' & sg & t & -> & [->| ->] & _)]; [apply after_not; [exact Hr|lits]|discriminate|discriminate]. }
  destruct Hf' as [vf Hf'].
  assert (Hd2 : hd_not byte_digit (f ++ e ++ rest)).
  { destruct Hf as [->|(t & -> & _)]; [exact Hd|reflexivity]. }
  edestruct ba_integer as [vi Hi']; [exact Hi|exact Hd2|].
  assert (Hm' : exists v, acc (p_opt (p_elm (chr "-"))) m (i ++ f ++ e ++ rest) v).
  { eapply a_opt_any with (c := false); [exact Hm| |].
    - intros <-. eexists. apply a_elm.
    - intros _. apply r_elm. destruct (g_int_digits Hi) as (x & t & -> & Hx). cbn. unfold digit in Hx. lia. }
  destruct Hm' as [vm Hm'].
  eapply a_collect. replace (m ++ i ++ f ++ e) with (((m ++ i) ++ f) ++ e) by now rewrite <- !app_assoc.
  eapply a_and; [eapply a_and; [eapply a_and|]|]; eassumption.
Qed.
Lemma br_number : forall x l, x <> 45%N -> ~ digit x -> rej (number_byte f64_parse) (x :: l) false.
Proof.
  intros x l H1 H2. unfold number_byte. apply r_map_panic, r_collect, r_and1, r_and1.
  change (x :: l) with ([] ++ x :: l). eapply r_and2; [eapply a_opt_none, r_elm; exact H1|].
  unfold integer_byte. apply r_or.
  - apply r_skip_right1, r_elm_pred. cbn. destruct (N.leb_spec 49 x); [|reflexivity]. destruct (N.leb_spec x 57); [|reflexivity].
    exfalso. apply H2. unfold digit. lia.
  - apply r_elm. intros ->. apply H2. unfold digit. cbn. lia.
Qed.
End Number.

(** ** Strings of the byte reader: no \u escapes, and the value is the text between the quotes. *)
Definition raw_string (lossy : list N -> list N) (v s : list N) : Prop :=
  exists is, Forall (item_ok false) is /\ Forall plain is /\ s = [34%N] ++ flat_map item_text is ++ [34%N] /\ v = lossy (flat_map item_text is).
Definition byte_elm : parser N N := p_or regular_byte escape_byte.
Lemma bh_char : hoare byte_elm (fun v s => exists i, s = item_text i /\ plain i /\ item_ok false i).
Proof.
  assert (A : forall c : N, In c ([34; 92]%N ++ bs "/bfnrt") -> hoare (p_elm c) (fun _ s => exists c, s = [c] /\ In c ([34; 92]%N ++ bs "/bfnrt"))).
  { intros c H. apply h_elm. exists c. auto. }
  assert (B : forall c v : N, In c ([34; 92]%N ++ bs "/bfnrt") ->
    hoare (p_map (p_elm c) (fun _ => v)) (fun _ s => exists c, s = [c] /\ In c ([34; 92]%N ++ bs "/bfnrt"))).
  { intros c v H. eapply h_map; [apply h_elm with (R := fun _ s => s = [c]); reflexivity|]. cbv beta. intros _ s ->. exists c. auto. }
  unfold byte_elm. apply h_or.
  - apply h_elm_pred. intros x Hx. apply andb_true_iff in Hx. rewrite !negb_true_iff, !N.eqb_neq in Hx. exists (SRaw x).
    cbn [item_text plain item_ok]. repeat split; try tauto. discriminate.
  - unfold escape_byte. eapply h_skip_left with (P := fun _ s => s = [92%N]) (Q := fun _ s => exists c, s = [c] /\ In c ([34; 92]%N ++ bs "/bfnrt"));
      [apply h_elm_ref; reflexivity| |].
    + repeat apply h_or; first [apply A|apply B]; cbn; tauto.
    + cbv beta. intros a b s t -> (c & -> & Hc). exists (SEsc c). now repeat split.
Qed.
Lemma ba_char : forall i rest, plain i -> item_ok false i -> exists v, acc byte_elm (item_text i) rest v.
Proof.
  intros [x|c|h] rest Hp Hi; [| |contradiction]; unfold byte_elm; cbn [item_text] in *.
  - exists x. apply a_or1, a_elm_pred. destruct Hi as (H1 & H2 & _). apply andb_true_iff. now rewrite !negb_true_iff, !N.eqb_neq.
  - exists (esc_value c). apply a_or2; [apply r_elm_pred; reflexivity|]. unfold escape_byte. change [92%N; c] with ([92%N] ++ [c]).
    eapply a_skip_left; [apply a_elm_ref|]. cbn in Hi.
    repeat (destruct Hi as [<-|Hi];
      [repeat first [apply a_or1; first [apply a_elm|apply (a_map (fun _ => _)), a_elm]
                    |apply a_or2; [repeat apply r_or; first [apply r_elm; discriminate|apply r_map, r_elm; discriminate]|first [apply a_elm|eapply a_map_eq; [apply a_elm|reflexivity]]]
                    |apply a_or1]|]).
    contradiction.
Qed.
Lemma br_quote : forall l, rej byte_elm (34%N :: l) false.
Proof. intros l. unfold byte_elm. apply r_or; [apply r_elm_pred; reflexivity|]. apply r_skip_left1, r_elm_ref. discriminate. Qed.
Section String.
Variable lossy : list N -> list N.
Lemma bh_string : hoare (string_byte lossy) (raw_string lossy).
Proof.
  unfold string_byte. eapply h_map with (Q := fun v s => exists is, Forall (item_ok false) is /\ Forall plain is /\
    s = [34%N] ++ flat_map item_text is ++ [34%N] /\ v = flat_map item_text is).
  - eapply h_skip_right with (P := fun v s => exists is, Forall (item_ok false) is /\ Forall plain is /\ s = [34%N] ++ flat_map item_text is /\ v = flat_map item_text is);
      [|apply h_elm with (R := fun _ s => s = [34%N]); reflexivity|].
    + eapply h_skip_left; [apply h_elm with (R := fun _ s => s = [34%N]); reflexivity| |].
      * eapply h_collect with (Q := fun _ s => exists is, Forall (item_ok false) is /\ Forall plain is /\ s = flat_map item_text is)
          (R := fun v s => exists is, Forall (item_ok false) is /\ Forall plain is /\ s = flat_map item_text is /\ v = s).
        -- eapply h_many0; [apply bh_char| |].
           ++ intros v s (i & -> & _). now destruct i.
           ++ intros vs s H. induction H as [|v s vs t (i & -> & H1 & H2) _ (is & K1 & K2 & ->)]; [now exists []|].
              exists (i :: is). repeat split; [now constructor|now constructor].
        -- cbv beta. intros _ s (is & H1 & H2 & ->). now exists is.
      * cbv beta. intros _ v s t -> (is & H1 & H2 & -> & ->). now exists is.
    + cbv beta. intros v _ s t (is & H1 & H2 & -> & ->) ->. exists is. now rewrite <- app_assoc.
  - cbv beta. intros v s (is & H1 & H2 & -> & ->). now exists is.
Qed.
Lemma ba_string : forall v s rest, raw_string lossy v s -> acc (string_byte lossy) s rest v.
Proof.
  intros v s rest (is & H1 & H2 & -> & ->). unfold string_byte. eapply a_map_eq; [|reflexivity]. rewrite app_assoc.
  eapply a_skip_right; [eapply a_skip_left; [apply a_elm|]|apply a_elm].
  assert (C : exists vs, chain byte_elm (flat_map item_text is) ([34%N] ++ rest) vs).
  { induction is as [|i is IH]; [eexists; constructor|]. inv H1. inv H2. destruct IH as [vs IH]; try assumption.
    edestruct (@ba_char i) as [w W]; [eassumption|eassumption|]. cbn [flat_map]. eexists. constructor; [exact W|now destruct i|exact IH]. }
  destruct C as [vs C]. eapply a_collect, a_many0; [exact C|]. apply br_quote.
Qed.
Lemma br_string : forall l, match l with [] => True | y :: _ => y <> 34%N end -> rej (string_byte lossy) l false.
Proof. intros l H. unfold string_byte. apply r_map, r_skip_right1, r_skip_left1. now apply r_elm. Qed.
Lemma raw_ne : forall v s, raw_string lossy v s -> exists t, s = 34%N :: t.
Proof. intros v s (is & _ & _ & -> & _). cbn. eauto. Qed.
End String.
