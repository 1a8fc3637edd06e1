(** The two JSON examples, json_byte.rs and json_char.rs, read the same documents: the grammar of texts of bytes is the image of
    the grammar of texts of characters under UTF-8. *)
From Verif Require Import PropsF.
From Verif Require Import Base Core Comb Closure Text Json JsonSpec JsonFacts.
Set Implicit Arguments.
Local Open Scope string_scope.
Local Open Scope nat_scope.
Local Open Scope list_scope.

(** The bytes of a text (std: str::as_bytes of the String made of the chars). *)
Definition enc (s : list N) : list N := flat_map utf8_encode s.
Notation scalars := (Forall scalar).

Lemma enc_app : forall a b, enc (a ++ b) = enc a ++ enc b.
Proof. intros a b. apply flat_map_app. Qed.
Lemma enc1 : forall x, (x < 128)%N -> utf8_encode x = [x].
Proof. intros x H. unfold utf8_encode. destruct (N.ltb_spec x 128); [reflexivity|lia]. Qed.
Lemma enc_ascii : forall s, ascii s -> enc s = s.
Proof. intros s H. induction H as [|x s Hx H IH]; [reflexivity|]. cbn [enc flat_map]. fold (enc s). now rewrite enc1, IH by exact Hx. Qed.
Lemma ascii_scalar : forall s, ascii s -> scalars s.
Proof. intros s H. eapply Forall_impl; [|exact H]. intros x Hx. cbn in Hx. split; lia. Qed.
Lemma ascii_app : forall a b, ascii a -> ascii b -> ascii (a ++ b).
Proof. intros a b Ha Hb. apply Forall_app. now split. Qed.

Ltac divs c :=
  change 262144%N with (64 * 64 * 64)%N in *; change 4096%N with (64 * 64)%N in *; rewrite <- ?N.div_div in * by discriminate;
  pose proof (N.div_mod c 64 ltac:(discriminate)); pose proof (N.mod_lt c 64 ltac:(discriminate));
  pose proof (N.div_mod (c / 64) 64 ltac:(discriminate)); pose proof (N.mod_lt (c / 64) 64 ltac:(discriminate));
  pose proof (N.div_mod (c / 64 / 64) 64 ltac:(discriminate)); pose proof (N.mod_lt (c / 64 / 64) 64 ltac:(discriminate));
  generalize dependent (c mod 64)%N; generalize dependent ((c / 64) mod 64)%N; generalize dependent ((c / 64 / 64) mod 64)%N;
  generalize dependent (c / 64 / 64 / 64)%N; generalize dependent (c / 64 / 64)%N; generalize dependent (c / 64)%N; intros.

Lemma enc_high : forall c, (128 <= c)%N -> Forall (fun b => 128 <= b)%N (utf8_encode c).
Proof.
  assert (L : forall k m, (128 <= k -> 128 <= k + m)%N) by (intros; lia).
  intros c H. unfold utf8_encode. destruct (N.ltb_spec c 128); [lia|].
  destruct (c <? 2048)%N; [|destruct (c <? 65536)%N]; repeat (apply Forall_cons; [apply L; discriminate|]); apply Forall_nil.
Qed.
Lemma enc_cons : forall c, exists x r, utf8_encode c = x :: r.
Proof. intros c. unfold utf8_encode. destruct (c <? 128)%N, (c <? 2048)%N, (c <? 65536)%N; eauto. Qed.

Lemma cons_eq : forall A (x y : A) a b, x :: a = y :: b -> x = y /\ a = b.
Proof. intros A x y a b H. now inv H. Qed.
(** No encoding is the beginning of another. *)
Lemma encode_inj : forall c d s t, scalar c -> scalar d -> utf8_encode c ++ s = utf8_encode d ++ t -> c = d /\ s = t.
Proof.
  intros c d s t [Hc _] [Hd _] E. unfold utf8_encode in E. divs c. divs d.
  destruct (N.ltb_spec c 128), (N.ltb_spec d 128); try destruct (N.ltb_spec c 2048); try destruct (N.ltb_spec d 2048);
    try destruct (N.ltb_spec c 65536); try destruct (N.ltb_spec d 65536); cbn [app] in E; try lia;
    repeat match type of E with _ :: _ = _ :: _ => apply cons_eq in E; let K := fresh in destruct E as [K E] end;
    first [lia|split; [lia|assumption]].
Qed.
Lemma enc_inj : forall s t, scalars s -> scalars t -> enc s = enc t -> s = t.
Proof.
  intros s t Hs. revert t. induction Hs as [|c s Hc Hs IH]; intros t Ht E; destruct Ht as [|d t Hd Ht]; [reflexivity| | |]; cbn [enc flat_map] in E.
  - destruct (enc_cons d) as (x & r & Ed). rewrite Ed in E. discriminate.
  - destruct (enc_cons c) as (x & r & Ed). rewrite Ed in E. discriminate.
  - apply encode_inj in E; [|assumption|assumption]. destruct E as [-> E]. f_equal. now apply IH.
Qed.
Lemma enc_valid : forall s, scalars s -> utf8_valid (enc s) = true.
Proof. intros s H. induction H as [|c s Hc H IH]; [reflexivity|]. cbn [enc flat_map]. rewrite utf8_valid_app by now apply encode_valid. exact IH. Qed.

(** A valid text starts with the encoding of a character. *)
Lemma valid_head : forall x r, utf8_valid (x :: r) = true -> exists c r', scalar c /\ x :: r = utf8_encode c ++ r' /\ utf8_valid r' = true.
Proof.
  assert (C2 : forall x y, (194 <= x <= 223)%N -> (128 <= y <= 191)%N -> exists c, scalar c /\ utf8_encode c = [x; y]).
  { intros x y Hx Hy. exists ((x - 192) * 64 + (y - 128))%N. split; [split; lia|]. unfold utf8_encode. destruct (N.ltb_spec ((x - 192) * 64 + (y - 128)) 128); [lia|].
    destruct (N.ltb_spec ((x - 192) * 64 + (y - 128)) 2048); [|lia]. rewrite N.div_add_l, N.div_small by lia. rewrite (N.add_comm ((x - 192) * 64)), N.mod_add, N.mod_small by lia.
    repeat f_equal; lia. }
  assert (M : forall a b c, (b < 64)%N -> (c < 64)%N -> (((a * 64 + b) * 64 + c) / 4096 = a /\ (((a * 64 + b) * 64 + c) / 64) mod 64 = b /\ ((a * 64 + b) * 64 + c) mod 64 = c)%N).
  { intros a b c Hb Hc. change 4096%N with (64 * 64)%N. rewrite <- N.div_div by lia. rewrite !N.div_add_l, (N.div_small c), N.add_0_r by lia.
    rewrite N.div_add_l, (N.div_small b), N.add_0_r by lia. rewrite (N.add_comm (a * 64)), N.mod_add, N.mod_small by lia.
    rewrite (N.add_comm (_ * 64) c), N.mod_add, N.mod_small by lia. auto. }
  assert (C3 : forall x y z, (224 <= x <= 239)%N -> (128 <= y <= 191)%N -> (128 <= z <= 191)%N -> (x = 224 -> 160 <= y)%N -> (x = 237 -> y <= 159)%N ->
    exists c, scalar c /\ utf8_encode c = [x; y; z]).
  { intros x y z Hx Hy Hz H1 H2. exists (((x - 224) * 64 + (y - 128)) * 64 + (z - 128))%N. split; [split; lia|]. unfold utf8_encode.
    destruct (M (x - 224) (y - 128) (z - 128))%N as (-> & -> & ->); [lia|lia|]. repeat match goal with |- context[(?a <? ?b)%N] => destruct (N.ltb_spec a b); [try lia|try lia] end.
    repeat f_equal; lia. }
  assert (C4 : forall x y z w, (240 <= x <= 244)%N -> (128 <= y <= 191)%N -> (128 <= z <= 191)%N -> (128 <= w <= 191)%N -> (x = 240 -> 144 <= y)%N -> (x = 244 -> y <= 143)%N ->
    exists c, scalar c /\ utf8_encode c = [x; y; z; w]).
  { intros x y z w Hx Hy Hz Hw H1 H2. exists ((((x - 240) * 64 + (y - 128)) * 64 + (z - 128)) * 64 + (w - 128))%N. split; [split; lia|]. unfold utf8_encode.
    destruct (M ((x - 240) * 64 + (y - 128)) (z - 128) (w - 128))%N as (E1 & -> & ->); [lia|lia|]. rewrite E1.
    change 262144%N with (4096 * 64)%N. rewrite <- N.div_div by lia. rewrite E1, N.div_add_l, N.div_small by lia.
    rewrite (N.add_comm (_ * 64) (y - 128)), N.mod_add, (N.mod_small (y - 128)) by lia.
    repeat match goal with |- context[(?a <? ?b)%N] => destruct (N.ltb_spec a b); [try lia|try lia] end. rewrite ?N.div_add, ?(N.div_small (y - 128)) by lia. repeat f_equal; lia. }
  intros x r V. cbn [utf8_valid] in V.
  assert (IR : forall lo hi y, in_range lo hi y = true -> (lo <= y <= hi)%N) by (intros lo hi y H; unfold in_range in H; rewrite andb_true_iff, !N.leb_le in H; exact H).
  destruct (N.ltb_spec x 128) as [L|L]; [exists x, r; split; [split; lia|]; split; [now rewrite enc1|exact V]|].
  destruct r as [|y r]; [discriminate|].
  destruct (in_range 194 223 x) eqn:R1.
  { apply andb_true_iff in V. destruct V as [V1 V]. apply IR in R1, V1. destruct (C2 x y R1 V1) as (c & Hc & E). exists c, r. rewrite E. auto. }
  destruct r as [|z r]; [discriminate|].
  assert (K3 : (224 <= x <= 239)%N -> (x = 224 -> 160 <= y)%N -> (x = 237 -> y <= 159)%N -> (128 <= y <= 191)%N -> cont z = true -> utf8_valid r = true ->
    exists c r', scalar c /\ x :: y :: z :: r = utf8_encode c ++ r' /\ utf8_valid r' = true).
  { intros A1 A2 A3 A4 A5 A6. apply IR in A5. destruct (C3 x y z A1 A4 A5 A2 A3) as (c & Hc & E). exists c, r. rewrite E. auto. }
  destruct (N.eqb_spec x 224) as [->|N1]; [rewrite !andb_true_iff in V; destruct V as [[V1 V2] V]; apply IR in V1; apply K3; lia || assumption|].
  destruct (in_range 225 236 x || in_range 238 239 x) eqn:R2.
  { rewrite !andb_true_iff in V. destruct V as [[V1 V2] V]. apply IR in V1. apply orb_true_iff in R2. destruct R2 as [R2|R2]; apply IR in R2; apply K3; lia || assumption. }
  destruct (N.eqb_spec x 237) as [->|N2]; [rewrite !andb_true_iff in V; destruct V as [[V1 V2] V]; apply IR in V1; apply K3; lia || assumption|].
  destruct r as [|w r]; [discriminate|].
  assert (K4 : (240 <= x <= 244)%N -> (x = 240 -> 144 <= y)%N -> (x = 244 -> y <= 143)%N -> (128 <= y <= 191)%N -> cont z = true -> cont w = true -> utf8_valid r = true ->
    exists c r', scalar c /\ x :: y :: z :: w :: r = utf8_encode c ++ r' /\ utf8_valid r' = true).
  { intros A1 A2 A3 A4 A5 A5' A6. apply IR in A5, A5'. destruct (C4 x y z w A1 A4 A5 A5' A2 A3) as (c & Hc & E). exists c, r. rewrite E. auto. }
  destruct (N.eqb_spec x 240) as [->|N3]; [rewrite !andb_true_iff in V; destruct V as [[[V1 V2] V3] V]; apply IR in V1; apply K4; lia || assumption|].
  destruct (in_range 241 243 x) eqn:R3; [rewrite !andb_true_iff in V; destruct V as [[[V1 V2] V3] V]; apply IR in V1, R3; apply K4; lia || assumption|].
  destruct (N.eqb_spec x 244) as [->|N4]; [rewrite !andb_true_iff in V; destruct V as [[[V1 V2] V3] V]; apply IR in V1; apply K4; lia || assumption|discriminate].
Qed.

(** ** Strings *)
(** A raw character is one raw item per byte. *)
Definition expand (i : sitem) : list sitem := match i with SRaw x => map SRaw (utf8_encode x) | _ => [i] end.
Definition raw_scalar (i : sitem) : Prop := match i with SRaw x => scalar x | _ => True end.
Lemma esc_ascii : forall c, In c ([34; 92]%N ++ bs "/bfnrt") -> (c < 128)%N /\ (esc_value c < 128)%N.
Proof. intros c H. unfold esc_value. cbn in H. repeat (destruct H as [<-|H]; [split; vm_compute; reflexivity|]). contradiction. Qed.
Lemma raws_text : forall l, flat_map item_text (map SRaw l) = l.
Proof. induction l as [|x l IH]; [reflexivity|]. cbn. now rewrite IH. Qed.
Lemma expand_text : forall is, Forall (item_ok false) is -> flat_map item_text (flat_map expand is) = enc (flat_map item_text is).
Proof.
  intros is H. induction H as [|i is Hi H IH]; [reflexivity|]. cbn [flat_map]. rewrite flat_map_app, enc_app, IH. f_equal.
  destruct i as [x|c|h]; cbn [expand item_text].
  - rewrite raws_text. cbn. now rewrite app_nil_r.
  - cbn [flat_map item_text]. rewrite app_nil_r. symmetry. apply enc_ascii. cbn [item_ok] in Hi. apply esc_ascii in Hi. constructor; [reflexivity|]. constructor; [apply Hi|constructor].
  - cbn [flat_map item_text]. rewrite app_nil_r. symmetry. apply enc_ascii. destruct Hi as [Hi _]. constructor; [reflexivity|]. constructor; [reflexivity|]. now apply hex_ascii.
Qed.
Lemma expand_ok : forall is, Forall (item_ok false) is -> Forall (item_ok false) (flat_map expand is).
Proof.
  intros is H. induction H as [|i is Hi H IH]; [constructor|]. cbn [flat_map]. apply Forall_app. split; [|exact IH].
  destruct i as [x|c|h]; cbn [expand]; [|now constructor|now constructor]. destruct Hi as (H1 & H2 & _).
  apply Forall_forall. intros i Hi. apply in_map_iff in Hi. destruct Hi as (b & <- & Hb). cbn.
  destruct (N.lt_ge_cases x 128) as [L|L].
  - rewrite enc1 in Hb by exact L. destruct Hb as [<-|[]]. repeat split; try assumption. discriminate.
  - pose proof (enc_high L) as K. rewrite Forall_forall in K. specialize (K b Hb). cbn in K. repeat split; try lia; discriminate.
Qed.
Lemma raws_value : forall e l r, items_value e (map SRaw l ++ r) = l ++ items_value e r.
Proof. intros e l r. induction l as [|x l IH]; [reflexivity|]. cbn. now rewrite IH. Qed.
Definition id_enc : N -> list N := fun c => [c].
Lemma expand_value : forall n is, length is <= n -> Forall (item_ok false) is ->
  items_value utf8_encode (flat_map expand is) = enc (items_value id_enc is).
Proof.
  induction n as [|n IH]; intros is Hn Hi; [destruct is; [reflexivity|cbn in Hn; lia]|].
  destruct is as [|[x|c|h] is]; [reflexivity| | |]; cbn [List.length] in Hn; inv Hi; cbn [flat_map expand].
  - rewrite raws_value. cbn [items_value enc flat_map]. f_equal. apply IH; [lia|assumption].
  - cbn [app items_value enc flat_map]. rewrite (IH is) by (lia || assumption). match goal with H : item_ok _ _ |- _ => cbn [item_ok] in H; apply esc_ascii in H end.
    now rewrite enc1 by tauto.
  - assert (T : items_value utf8_encode (flat_map expand is) = enc (items_value id_enc is)) by (apply IH; [lia|assumption]).
    assert (E1 : forall c l, enc (id_enc c ++ l) = utf8_encode c ++ enc l) by reflexivity.
    cbn [app items_value]. cbv zeta.
    destruct (N.leb_spec 55296 (hex_value h)), (N.leb_spec (hex_value h) 56319); cbn [andb];
      [|destruct (N.leb_spec 56320 (hex_value h)), (N.leb_spec (hex_value h) 57343); cbn [andb]; rewrite E1, T; reflexivity ..].
    destruct is as [|[x|c|h2] is]; cbn [flat_map expand app] in T |- *; [reflexivity| | |].
    + destruct (enc_cons x) as (b & r & Eb). rewrite Eb in T |- *. cbn [map app] in T |- *. rewrite T. now rewrite E1.
    + rewrite T. now rewrite E1.
    + cbn [List.length] in Hn. destruct (N.leb_spec 56320 (hex_value h2)), (N.leb_spec (hex_value h2) 57343); cbn [andb]; rewrite E1; try (now rewrite T).
      f_equal. apply IH; [lia|]. match goal with H : Forall _ (_ :: _) |- _ => now inv H end.
Qed.
Lemma value_scalar : forall n is, length is <= n -> Forall (item_ok false) is -> Forall raw_scalar is -> scalars (items_value id_enc is).
Proof.
  induction n as [|n IH]; intros is Hn Hi Hr; [destruct is; [constructor|cbn in Hn; lia]|].
  destruct is as [|[x|c|h] is]; [constructor| | |]; cbn [List.length] in Hn; inv Hi; inv Hr; cbn [items_value].
  - constructor; [assumption|]. apply IH; [lia|assumption|assumption].
  - constructor; [|apply IH; [lia|assumption|assumption]]. match goal with H : item_ok _ _ |- _ => cbn [item_ok] in H; apply esc_ascii in H end. split; lia.
  - assert (T : scalars (items_value id_enc is)) by (apply IH; [lia|assumption|assumption]). match goal with H : item_ok _ _ |- _ => destruct H as [Hh Lh] end.
    pose proof (hex_value_bound Hh) as B. rewrite Lh in B. change (16 ^ N.of_nat 4)%N with 65536%N in B. cbv zeta.
    assert (E : forall c l, scalar c -> scalars l -> scalars (id_enc c ++ l)) by (intros; constructor; assumption).
    assert (R : scalar 65533) by (split; lia).
    destruct (N.leb_spec 55296 (hex_value h)), (N.leb_spec (hex_value h) 56319); cbn [andb];
      [|destruct (N.leb_spec 56320 (hex_value h)), (N.leb_spec (hex_value h) 57343); cbn [andb]; apply E; try assumption; split; lia ..].
    destruct is as [|[x|c|h2] is]; [now apply E ..|].
    destruct (N.leb_spec 56320 (hex_value h2)), (N.leb_spec (hex_value h2) 57343); cbn [andb]; try (now apply E).
    apply E; [split; lia|]. cbn [List.length] in Hn. repeat match goal with H : Forall _ (_ :: _) |- _ => inv H end. apply IH; [lia|assumption|assumption].
Qed.
(** Items over bytes are the expansion of items over characters. *)
Lemma raw_prefix : forall l is r, Forall (fun b => 128 <= b)%N l -> flat_map item_text is = l ++ r -> exists is', is = map SRaw l ++ is' /\ flat_map item_text is' = r.
Proof.
  induction l as [|b l IH]; intros is r Hl E; [exists is; auto|]. inv Hl. destruct is as [|[x|c|h] is]; cbn [flat_map item_text app] in E; [discriminate| |exfalso; inv E; lia ..].
  inv E. match goal with H : flat_map _ _ = _ |- _ => destruct (IH _ _ ltac:(eassumption) H) as (is' & -> & E') end. exists is'. auto.
Qed.
Lemma items_decode : forall n is, length is <= n -> Forall (item_ok false) is -> utf8_valid (flat_map item_text is) = true ->
  exists js, is = flat_map expand js /\ Forall (item_ok false) js /\ Forall raw_scalar js.
Proof.
  induction n as [|n IH]; intros is Hn Hi V; [destruct is; [|cbn in Hn; lia]; exists []; repeat split; constructor|].
  assert (S1 : forall i is, item_ok false i -> length is <= n -> Forall (item_ok false) is -> ascii (item_text i) -> expand i = [i] -> raw_scalar i -> utf8_valid (flat_map item_text (i :: is)) = true ->
    exists js, i :: is = flat_map expand js /\ Forall (item_ok false) js /\ Forall raw_scalar js).
  { intros i is0 H1 H2 H3 H4 H5 H6 H7. cbn [flat_map] in H7. rewrite utf8_valid_app in H7 by now apply ascii_valid. destruct (IH is0 H2 H3 H7) as (js & E & J1 & J2).
    exists (i :: js). cbn [flat_map]. rewrite H5, E. repeat split; now constructor. }
  destruct is as [|[x|c|h] is]; [exists []; repeat split; constructor| | |]; cbn [List.length] in Hn; inv Hi.
  - destruct (N.lt_ge_cases x 128) as [L|L].
    + apply S1; try assumption; [lia|now constructor|cbn; now rewrite enc1|split; lia].
    + cbn [flat_map item_text app] in V. destruct (@valid_head _ _ V) as (c & r' & Hc & E & V').
      assert (Lc : (128 <= c)%N) by (destruct (N.lt_ge_cases c 128) as [K|K]; [|exact K]; rewrite enc1 in E by exact K; inv E; lia).
      change (x :: flat_map item_text is) with (flat_map item_text (SRaw x :: is)) in E. destruct (@raw_prefix _ _ _ (enc_high Lc) E) as (is' & E' & T').
      assert (Forall (item_ok false) is') by (assert (Forall (item_ok false) (SRaw x :: is)) as K by (constructor; assumption); rewrite E' in K; apply Forall_app in K; tauto).
      destruct (IH is') as (js & -> & J1 & J2).
      * apply (f_equal (@List.length _)) in E'. rewrite app_length, map_length in E'. cbn [List.length] in E'. destruct (enc_cons c) as (b & r & Eb). rewrite Eb in E'. cbn [List.length] in E'. lia.
      * assumption.
      * now rewrite T'.
      * exists (SRaw c :: js). split; [exact E'|]. split; constructor; try assumption. cbn. repeat split; [lia|lia|discriminate].
  - apply S1; try assumption; [lia| |reflexivity|exact I]. match goal with H : item_ok _ _ |- _ => cbn [item_ok] in H; apply esc_ascii in H end. constructor; [reflexivity|]. constructor; [tauto|constructor].
  - apply S1; try assumption; [lia| |reflexivity|exact I]. match goal with H : item_ok _ _ |- _ => destruct H as [Hh _] end. constructor; [reflexivity|]. constructor; [reflexivity|]. now apply hex_ascii.
Qed.
Lemma text_scalar : forall is, Forall (item_ok false) is -> Forall raw_scalar is <-> scalars (flat_map item_text is).
Proof.
  intros is H. induction H as [|i is Hi H IH]; [split; constructor|]. cbn [flat_map]. rewrite Forall_app, <- IH. split.
  - intros K. inv K. split; [|assumption]. destruct i as [x|c|h]; [constructor; [assumption|constructor]| |]; apply ascii_scalar.
    + cbn [item_ok] in Hi. apply esc_ascii in Hi. constructor; [reflexivity|]. constructor; [tauto|constructor].
    + destruct Hi as [Hh _]. constructor; [reflexivity|]. constructor; [reflexivity|]. now apply hex_ascii.
  - intros [K1 K2]. constructor; [|exact K2]. destruct i; cbn; try exact I. now inv K1.
Qed.
Lemma string_up : forall v s, g_string false false v s -> scalars s -> g_string false true (enc v) (enc s) /\ scalars v.
Proof.
  intros v s (is & Hi & -> & -> & _) Hs. apply Forall_app in Hs. destruct Hs as [_ Hs]. apply Forall_app in Hs. destruct Hs as [Hs _].
  pose proof (proj2 (text_scalar Hi) Hs) as Hr. split; [|now apply (@value_scalar (length is))].
  exists (flat_map expand is). split; [now apply expand_ok|]. rewrite expand_text by exact Hi. split; [now rewrite !enc_app|]. split.
  - symmetry. now apply (@expand_value (length is)).
  - intros _. now apply enc_valid.
Qed.
Lemma string_down : forall v s, g_string false true v s -> exists v' s', g_string false false v' s' /\ v = enc v' /\ s = enc s' /\ scalars s' /\ scalars v'.
Proof.
  intros v s (is & Hi & -> & -> & V). specialize (V eq_refl). destruct (@items_decode (length is) is (le_n _) Hi V) as (js & -> & J1 & J2).
  exists (items_value id_enc js), ([34%N] ++ flat_map item_text js ++ [34%N]). split; [|split; [|split; [|split]]].
  - exists js. repeat split; try assumption. discriminate.
  - now apply (@expand_value (length js)).
  - rewrite expand_text by exact J1. now rewrite !enc_app.
  - apply Forall_app. split; [apply ascii_scalar; constructor; [reflexivity|constructor]|]. apply Forall_app. split; [now apply text_scalar|apply ascii_scalar; constructor; [reflexivity|constructor]].
  - now apply (@value_scalar (length js)).
Qed.

(** ** Values *)
Section Values.
Variable F : Type.
Variable f64_parse : list N -> F + unit.
(** A value with its strings and keys as bytes. *)
Fixpoint enc_json (v : json F) : json F :=
  match v with
  | JStr _ s => JStr F (enc s)
  | JArray l => JArray (map enc_json l)
  | JObject m => JObject (map (fun kv => (enc (fst kv), enc_json (snd kv))) m)
  | _ => v
  end.
Definition enc_kv (kv : list N * json F) : list N * json F := (enc (fst kv), enc_json (snd kv)).
Definition key_scalar (kv : list N * json F) : Prop := scalars (fst kv).

Lemma set_up : forall (m : list (list N * json F)) k v, Forall key_scalar m -> scalars k ->
  hm_set (map enc_kv m) (enc k) (enc_json v) = map enc_kv (hm_set m k v) /\ Forall key_scalar (hm_set m k v).
Proof.
  intros m k v H Hk. induction H as [|[k' v'] m Hk' H [IH1 IH2]]; cbn [map hm_set]; [split; [reflexivity|constructor; [exact Hk|constructor]]|].
  unfold enc_kv at 1. cbn [fst snd]. unfold key_scalar in Hk'. cbn [fst] in Hk'.
  destruct (list_eq_dec N.eq_dec k k') as [->|Ne].
  - destruct (list_eq_dec N.eq_dec (enc k') (enc k')); [|congruence]. split; [reflexivity|now constructor].
  - destruct (list_eq_dec N.eq_dec (enc k) (enc k')) as [E|_]; [exfalso; apply Ne; now apply enc_inj|]. rewrite IH1. split; [reflexivity|now constructor].
Qed.
Lemma collect_up : forall ms : list (list N * json F), Forall key_scalar ms -> hm_collect (map enc_kv ms) = map enc_kv (hm_collect ms).
Proof.
  intros ms. unfold hm_collect. change (@nil (list N * json F)) with (map enc_kv []) at 1. assert (K : Forall key_scalar []) by constructor. revert K. generalize (@nil (list N * json F)).
  induction ms as [|[k v] ms IH]; intros m Hm H; [reflexivity|]. inv H. cbn [map fold_left fst snd]. destruct (set_up (k := k) v Hm) as [E S1]; [assumption|].
  cbn [enc_kv fst snd]. rewrite E. now apply IH.
Qed.

Lemma ws_ascii : forall w, ws w -> ascii w.
Proof. intros w H. eapply Forall_impl; [|exact H]. intros x Hx. cbn in Hx. cbn. intuition; subst; reflexivity. Qed.
Lemma digits_ascii : forall s, Forall digit s -> ascii s.
Proof. intros s H. eapply Forall_impl; [|exact H]. unfold digit. intros x Hx. cbn. lia. Qed.
Lemma number_ascii : forall s, g_number s -> ascii s.
Proof.
  intros s (m & i & f & e & -> & Hm & Hi & Hf & He). repeat apply ascii_app.
  - destruct Hm as [->| <-]; repeat constructor.
  - destruct Hi as [->|(x & t & -> & Hx & Ht)]; [repeat constructor|]. constructor; [cbn; lia|now apply digits_ascii].
  - destruct Hf as [->|(t & -> & Ht & _)]; [constructor|]. constructor; [reflexivity|now apply digits_ascii].
  - destruct He as [->|(a & sg & t & -> & Ha & Hs & Ht & _)]; [constructor|]. repeat apply ascii_app.
    + destruct Ha as [->| ->]; repeat constructor.
    + destruct Hs as [->|[->| ->]]; repeat constructor.
    + now apply digits_ascii.
Qed.
Lemma trailing_ascii : forall t, trailing false t -> ascii t.
Proof. intros t [->|(_ & w & -> & Hw)]; [constructor|]. constructor; [reflexivity|now apply ws_ascii]. Qed.

Ltac split_scalars := repeat match goal with H : scalars (_ ++ _) |- _ => apply Forall_app in H; let H1 := fresh in let H2 := fresh in destruct H as [H1 H2] end.
Lemma values_up :
  (forall v s, jval f64_parse false false v s -> scalars s -> jval f64_parse false true (enc_json v) (enc s)) /\
  (forall vs s, jelems f64_parse false false vs s -> scalars s -> jelems f64_parse false true (map enc_json vs) (enc s)) /\
  (forall ms s, jmembers f64_parse false false ms s -> scalars s -> jmembers f64_parse false true (map enc_kv ms) (enc s) /\ Forall key_scalar ms).
Proof.
  apply (@jval_ind3 F f64_parse false false
    (fun v s _ => scalars s -> jval f64_parse false true (enc_json v) (enc s))
    (fun vs s _ => scalars s -> jelems f64_parse false true (map enc_json vs) (enc s))
    (fun ms s _ => scalars s -> jmembers f64_parse false true (map enc_kv ms) (enc s) /\ Forall key_scalar ms)); cbn [enc_json map].
  - intros _. apply j_null.
  - intros _. apply j_true.
  - intros _. apply j_false.
  - intros x s Hg Hf _. rewrite enc_ascii by now apply number_ascii. now apply j_num.
  - intros v s Hg Hs. apply j_str. now apply string_up.
  - intros w Hw _. rewrite !enc_app, (enc_ascii (ws_ascii Hw)). now apply j_arr0.
  - intros vs s t H IH Ht Hs. split_scalars. rewrite !enc_app, (enc_ascii (trailing_ascii Ht)). now apply j_arr; [apply IH|].
  - intros w Hw _. rewrite !enc_app, (enc_ascii (ws_ascii Hw)). now apply j_obj0.
  - intros ms s t H IH Ht Hs. split_scalars. destruct IH as [IH K]; [assumption|].
    change (map (fun kv => (enc (fst kv), enc_json (snd kv))) (hm_collect ms)) with (map enc_kv (hm_collect ms)).
    rewrite <- collect_up by exact K. rewrite !enc_app, (enc_ascii (trailing_ascii Ht)). now apply j_obj.
  - intros v a s b Ha H IH Hb Hs. split_scalars. rewrite !enc_app, (enc_ascii (ws_ascii Ha)), (enc_ascii (ws_ascii Hb)). apply je_one; auto.
  - intros v a s b vs t Ha H IH Hb Ht IHt Hs. split_scalars. rewrite !enc_app, (enc_ascii (ws_ascii Ha)), (enc_ascii (ws_ascii Hb)). apply je_more; auto.
  - intros k v a sk b c s d Ha Hk Hb Hc H IH Hd Hs. split_scalars. rewrite !enc_app, (enc_ascii (ws_ascii Ha)), (enc_ascii (ws_ascii Hb)), (enc_ascii (ws_ascii Hc)), (enc_ascii (ws_ascii Hd)).
    destruct (string_up Hk) as [Hk' Sk]; [assumption|]. split; [apply jm_one; auto|]. constructor; [exact Sk|constructor].
  - intros k v a sk b c s d ms t Ha Hk Hb Hc H IH Hd Ht IHt Hs. split_scalars. rewrite !enc_app, (enc_ascii (ws_ascii Ha)), (enc_ascii (ws_ascii Hb)), (enc_ascii (ws_ascii Hc)), (enc_ascii (ws_ascii Hd)).
    destruct (string_up Hk) as [Hk' Sk]; [assumption|]. destruct IHt as [I1 I2]; [assumption|]. split; [apply jm_more; auto|]. now constructor.
Qed.

Ltac scal := repeat (apply Forall_app; split); try assumption; try (apply ascii_scalar; first [assumption|now apply ws_ascii|now apply trailing_ascii|repeat constructor]).
Lemma values_down :
  (forall v s, jval f64_parse false true v s -> exists v' s', jval f64_parse false false v' s' /\ v = enc_json v' /\ s = enc s' /\ scalars s') /\
  (forall vs s, jelems f64_parse false true vs s -> exists vs' s', jelems f64_parse false false vs' s' /\ vs = map enc_json vs' /\ s = enc s' /\ scalars s') /\
  (forall ms s, jmembers f64_parse false true ms s -> exists ms' s', jmembers f64_parse false false ms' s' /\ ms = map enc_kv ms' /\ s = enc s' /\ scalars s' /\ Forall key_scalar ms').
Proof.
  apply (@jval_ind3 F f64_parse false true
    (fun v s _ => exists v' s', jval f64_parse false false v' s' /\ v = enc_json v' /\ s = enc s' /\ scalars s')
    (fun vs s _ => exists vs' s', jelems f64_parse false false vs' s' /\ vs = map enc_json vs' /\ s = enc s' /\ scalars s')
    (fun ms s _ => exists ms' s', jmembers f64_parse false false ms' s' /\ ms = map enc_kv ms' /\ s = enc s' /\ scalars s' /\ Forall key_scalar ms')).
  - exists (JNull F), (bs "null"). repeat split; [constructor|scal].
  - exists (JBool F true), (bs "true"). repeat split; [constructor|scal].
  - exists (JBool F false), (bs "false"). repeat split; [constructor|scal].
  - intros x s Hg Hf. exists (JNum x), s. pose proof (number_ascii Hg) as A. rewrite (enc_ascii A). repeat split; [now constructor|scal].
  - intros v s Hg. destruct (string_down Hg) as (v' & s' & H & -> & -> & Hs & _). exists (JStr F v'), s'. repeat split; [now constructor|exact Hs].
  - intros w Hw. exists (JArray []), (bs "[" ++ w ++ bs "]"). rewrite !enc_app, (enc_ascii (ws_ascii Hw)). repeat split; [now constructor|scal].
  - intros vs s t H (vs' & s' & H' & -> & -> & Hs) Ht. exists (JArray vs'), (bs "[" ++ s' ++ t ++ bs "]"). rewrite !enc_app, (enc_ascii (trailing_ascii Ht)). repeat split; [now constructor|scal].
  - intros w Hw. exists (JObject []), (bs "{" ++ w ++ bs "}"). rewrite !enc_app, (enc_ascii (ws_ascii Hw)). repeat split; [now constructor|scal].
  - intros ms s t H (ms' & s' & H' & -> & -> & Hs & Hk) Ht. exists (JObject (hm_collect ms')), (bs "{" ++ s' ++ t ++ bs "}"). rewrite !enc_app, (enc_ascii (trailing_ascii Ht)).
    rewrite collect_up by exact Hk. repeat split; [now constructor|scal].
  - intros v a s b Ha H (v' & s' & H' & -> & -> & Hs) Hb. exists [v'], (a ++ s' ++ b). rewrite !enc_app, (enc_ascii (ws_ascii Ha)), (enc_ascii (ws_ascii Hb)). repeat split; [now constructor|scal].
  - intros v a s b vs t Ha H (v' & s' & H' & -> & -> & Hs) Hb Ht (vs' & t' & Ht' & -> & -> & Hst). exists (v' :: vs'), (a ++ s' ++ b ++ bs "," ++ t').
    rewrite !enc_app, (enc_ascii (ws_ascii Ha)), (enc_ascii (ws_ascii Hb)). repeat split; [now constructor|scal].
  - intros k v a sk b c s d Ha Hk Hb Hc H (v' & s' & H' & -> & -> & Hs) Hd. destruct (string_down Hk) as (k' & sk' & Hk' & -> & -> & Hsk & Hkk).
    exists [(k', v')], (a ++ sk' ++ b ++ bs ":" ++ c ++ s' ++ d). rewrite !enc_app, (enc_ascii (ws_ascii Ha)), (enc_ascii (ws_ascii Hb)), (enc_ascii (ws_ascii Hc)), (enc_ascii (ws_ascii Hd)).
    repeat split; [now constructor|scal|constructor; [exact Hkk|constructor]].
  - intros k v a sk b c s d ms t Ha Hk Hb Hc H (v' & s' & H' & -> & -> & Hs) Hd Ht (ms' & t' & Ht' & -> & -> & Hst & Hms). destruct (string_down Hk) as (k' & sk' & Hk' & -> & -> & Hsk & Hkk).
    exists ((k', v') :: ms'), (a ++ sk' ++ b ++ bs ":" ++ c ++ s' ++ d ++ bs "," ++ t'). rewrite !enc_app, (enc_ascii (ws_ascii Ha)), (enc_ascii (ws_ascii Hb)), (enc_ascii (ws_ascii Hc)), (enc_ascii (ws_ascii Hd)).
    repeat split; [now constructor|scal|now constructor].
Qed.

Lemma doc_up : forall v s, jdoc f64_parse false false v s -> scalars s -> jdoc f64_parse false true (enc_json v) (enc s).
Proof.
  intros v s (a & t & b & -> & Ha & Hv & Hb) Hs. exists a, (enc t), b. split_scalars. rewrite !enc_app, (enc_ascii (ws_ascii Ha)), (enc_ascii (ws_ascii Hb)).
  repeat split; try assumption. now apply values_up.
Qed.
Lemma doc_down : forall v s, jdoc f64_parse false true v s -> exists v' s', jdoc f64_parse false false v' s' /\ v = enc_json v' /\ s = enc s' /\ scalars s'.
Proof.
  intros v s (a & t & b & -> & Ha & Hv & Hb). apply values_down in Hv. destruct Hv as (v' & t' & Hv & -> & -> & Hs). exists v', (a ++ t' ++ b).
  split; [exists a, t', b; auto|]. rewrite !enc_app, (enc_ascii (ws_ascii Ha)), (enc_ascii (ws_ascii Hb)). repeat split. scal.
Qed.
End Values.
