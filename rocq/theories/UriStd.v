(** A model of the standard library functions that the uri crate applies to IPv6 addresses: Ipv6Addr::from_str and the
    Display implementation of Ipv6Addr (library/core/src/net/parser.rs and ip_addr.rs of the Rust sources; they are not part
    of /repo and are modelled from their documentation and published source).  The theorems about URIs that take these
    functions as arguments can be instantiated with this model. *)
From Coq Require Import ZifyN.
From Verif Require Import Base Core Comb Closure RepFacts LitFacts Hoare Runs Text JsonFacts Uri UriSpec UriFacts UriComplete UriV6.
Set Implicit Arguments.
Local Open Scope string_scope.
Local Open Scope nat_scope.
Local Open Scope list_scope.

(** ** Reading *)
(** The longest prefix in a class, and the rest. *)
Fixpoint span (f : N -> bool) (l : list N) : list N * list N :=
  match l with
  | [] => ([], [])
  | x :: t => if f x then (x :: fst (span f t), snd (span f t)) else ([], l)
  end.
(** Parser::read_number(16, Some(4), true). *)
Definition std_hex4 (l : list N) : option (N * list N) :=
  let '(ds, r) := span is_ascii_hex_digit l in
  if (1 <=? length ds) && (length ds <=? 4) then Some (hex_value ds, r) else None.
(** Parser::read_number(10, Some(3), false) for u8. *)
Definition std_dec3 (l : list N) : option (N * list N) :=
  let '(ds, r) := span is_ascii_digit l in
  let leading_zero := match ds with x :: _ => (x =? 48)%N | [] => false end in
  if (1 <=? length ds) && (length ds <=? 3) && negb (leading_zero && (1 <? length ds)) && (dec_value ds <=? 255)%N
  then Some (dec_value ds, r) else None.
(** Parser::read_given_char. *)
Definition std_char (c : N) (l : list N) : option (list N) :=
  match l with x :: r => if (x =? c)%N then Some r else None | [] => None end.
(** Parser::read_separator: no separator before the element of index 0. *)
Definition std_sep {A} (c : N) (index : nat) (inner : list N -> option (A * list N)) (l : list N) : option (A * list N) :=
  match index with
  | O => inner l
  | S _ => match std_char c l with Some r => inner r | None => None end
  end.
(** Parser::read_ipv4_addr. *)
Definition std_ipv4 (l : list N) : option (ipv4 * list N) :=
  match std_dec3 l with
  | Some (a, l1) =>
      match std_sep (chr ".") 1 std_dec3 l1 with
      | Some (b, l2) =>
          match std_sep (chr ".") 2 std_dec3 l2 with
          | Some (c, l3) =>
              match std_sep (chr ".") 3 std_dec3 l3 with
              | Some (d, l4) => Some ((a, b, c, d), l4)
              | None => None
              end
          | None => None
          end
      | None => None
      end
  | None => None
  end.
(** read_groups in Parser::read_ipv6_addr: [n] slots remain, [index] are filled; the flag says that the groups end in an IPv4
    address, which is tried while at least two slots remain. *)
Fixpoint std_groups (n index : nat) (l : list N) : list N * bool * list N :=
  match n with
  | O => ([], false, l)
  | S n' =>
      match (match n' with O => None | S _ => std_sep (chr ":") index std_ipv4 l end) with
      | Some ((a, b, c, d), r) => ([a * 256 + b; c * 256 + d]%N, true, r)
      | None =>
          match std_sep (chr ":") index std_hex4 l with
          | Some (g, r) => let '(gs, v4, r') := std_groups n' (S index) r in (g :: gs, v4, r')
          | None => ([], false, l)
          end
      end
  end.
(** Parser::read_ipv6_addr and parse_with: the whole text must be read. *)
Definition at_end (a : ipv6) (r : list N) : ipv6 + unit := match r with [] => inl a | _ :: _ => inr tt end.
Definition std_v6_parse (l : list N) : ipv6 + unit :=
  let '(head, v4, r) := std_groups 8 0 l in
  if length head =? 8 then at_end head r
  else if v4 then inr tt
  else
    match std_char (chr ":") r with
    | Some r1 =>
        match std_char (chr ":") r1 with
        | Some r2 =>
            let '(tail, _, r3) := std_groups (8 - (length head + 1)) 0 r2 in
            at_end (head ++ repeat 0%N (8 - length head - length tail) ++ tail) r3
        | None => inr tt
        end
    | None => inr tt
    end.

(** ** Printing *)
Definition hex_char (d : N) : N := if (d <? 10)%N then (48 + d)%N else (87 + d)%N.
(** {:x} of a u16. *)
Definition show_hex (v : N) : bytes :=
  if (v <? 16)%N then [hex_char v]
  else if (v <? 256)%N then [hex_char (v / 16); hex_char (v mod 16)]
  else if (v <? 4096)%N then [hex_char (v / 256); hex_char (v / 16 mod 16); hex_char (v mod 16)]
  else [hex_char (v / 4096); hex_char (v / 256 mod 16); hex_char (v / 16 mod 16); hex_char (v mod 16)].
(** The loop that finds the first longest run of zero segments: index, longest (start, length), current (start, length). *)
Definition run_step (st : nat * (nat * nat) * (nat * nat)) (segment : N) : nat * (nat * nat) * (nat * nat) :=
  let '(i, longest, (cs, cl)) := st in
  if (segment =? 0)%N then
    let current := (if cl =? 0 then i else cs, S cl) in
    (S i, if snd longest <? snd current then current else longest, current)
  else (S i, longest, (0, 0)).
Definition zero_run (segments : list N) : nat * nat := snd (fst (fold_left run_step segments (0, (0, 0), (0, 0)))).
(** fmt_subslice. *)
Definition show_groups (l : list N) : bytes :=
  match l with [] => [] | v :: vs => show_hex v ++ flat_map (fun w => bs ":" ++ show_hex w) vs end.
(** Ipv6Addr::to_ipv4_mapped: the segments holding the IPv4 address. *)
Definition v4_mapped (a : ipv6) : option (N * N) :=
  match a with
  | [s0; s1; s2; s3; s4; s5; x; y] =>
      if forallb (N.eqb 0) [s0; s1; s2; s3; s4] && (s5 =? 65535)%N then Some (x, y) else None
  | _ => None
  end.
(** Display for Ipv6Addr without width or precision. *)
Definition std_v6_show (a : ipv6) : bytes :=
  match v4_mapped a with
  | Some (x, y) => bs "::ffff:" ++ show_ipv4 (x / 256, x mod 256, y / 256, y mod 256)%N
  | None =>
      let '(start, len) := zero_run a in
      if 1 <? len then show_groups (firstn start a) ++ bs "::" ++ show_groups (skipn (start + len) a) else show_groups a
  end.

(** ** The numbers *)
Lemma span_app : forall f s r, Forall (fun x => f x = true) s -> hd_not f r -> span f (s ++ r) = (s, r).
Proof.
  intros f s r H Hr. induction H as [|x s Hx _ IH].
  - destruct r as [|x r]; [reflexivity|]. cbn in *. now rewrite Hr.
  - cbn [app span]. rewrite Hx, IH. reflexivity.
Qed.
Lemma span_inv : forall f l, l = fst (span f l) ++ snd (span f l) /\ Forall (fun x => f x = true) (fst (span f l)) /\ hd_not f (snd (span f l)).
Proof.
  intros f l. induction l as [|x l (IH1 & IH2 & IH3)]; [repeat split; constructor|]. cbn [span]. destruct (f x) eqn:E; cbn [fst snd].
  - split; [cbn [app]; now rewrite <- IH1|]. split; [now constructor|exact IH3].
  - repeat split; [constructor|exact E].
Qed.
Lemma hex_true : forall s, Forall (fun x => is_ascii_hex_digit x = true) s <-> Forall hexdig s.
Proof. intros s. split; intros H; (eapply Forall_impl; [|exact H]); cbv beta; intros x; apply hexdig_iff. Qed.
Lemma digit_iff : forall x, is_ascii_digit x = true <-> digit x.
Proof. intros x. unfold is_ascii_digit, in_range, digit. rewrite andb_true_iff, !N.leb_le. lia. Qed.
Lemma digit_true : forall s, Forall (fun x => is_ascii_digit x = true) s <-> Forall digit s.
Proof. intros s. split; intros H; (eapply Forall_impl; [|exact H]); cbv beta; intros x; apply digit_iff. Qed.

Lemma std_hex4_group : forall v s r, group v s -> hd_not is_ascii_hex_digit r -> std_hex4 (s ++ r) = Some (v, r).
Proof.
  intros v s r (H & L & <-) Hr. unfold std_hex4. rewrite span_app by (try apply hex_true; assumption).
  destruct (Nat.leb_spec 1 (length s)), (Nat.leb_spec (length s) 4); try lia. reflexivity.
Qed.
Lemma std_hex4_inv : forall l v r, std_hex4 l = Some (v, r) -> exists s, l = s ++ r /\ group v s.
Proof.
  intros l v r H. unfold std_hex4 in H. destruct (span is_ascii_hex_digit l) as [ds r'] eqn:E.
  pose proof (span_inv is_ascii_hex_digit l) as (K1 & K2 & _). rewrite E in K1, K2. cbn [fst snd] in *.
  destruct (Nat.leb_spec 1 (length ds)), (Nat.leb_spec (length ds) 4); try discriminate. cbn in H. injection H as <- <-.
  exists ds. split; [exact K1|]. split; [now apply hex_true|]. split; [lia|reflexivity].
Qed.
Lemma std_dec3_octet : forall v s r, octet v s -> hd_not is_ascii_digit r -> std_dec3 (s ++ r) = Some (v, r).
Proof.
  intros v s r H Hr. assert (K : octet_ok s = true) by (apply octet_iff; eauto). destruct H as ((H & Hne & Hz) & <- & Hv).
  unfold std_dec3. rewrite span_app by (try apply digit_true; assumption).
  assert (L : 1 <= length s <= 3) by (destruct s as [|a [|b [|c [|d s]]]]; cbn in *; try congruence; lia).
  destruct (Nat.leb_spec 1 (length s)), (Nat.leb_spec (length s) 3); try lia. destruct (N.leb_spec (dec_value s) 255); [|lia].
  destruct s as [|x s]; [congruence|]. destruct (N.eqb_spec x 48) as [->|Hx]; [|reflexivity].
  destruct s as [|y s]; [reflexivity|]. exfalso. now apply Hz.
Qed.
Lemma std_dec3_inv : forall l v r, std_dec3 l = Some (v, r) -> exists s, l = s ++ r /\ octet v s.
Proof.
  intros l v r H. unfold std_dec3 in H. destruct (span is_ascii_digit l) as [ds r'] eqn:E.
  pose proof (span_inv is_ascii_digit l) as (K1 & K2 & _). rewrite E in K1, K2. cbn [fst snd] in *.
  destruct (Nat.leb_spec 1 (length ds)), (Nat.leb_spec (length ds) 3); try discriminate.
  destruct (N.leb_spec (dec_value ds) 255); [|now rewrite andb_false_r in H].
  destruct (negb _) eqn:Z in H; [|discriminate]. cbn in H. injection H as <- <-. exists ds. split; [exact K1|].
  split; [|split; [reflexivity|assumption]]. split; [now apply digit_true|]. destruct ds as [|x [|y ds]]; [cbn in *; lia|split; [discriminate|exact I]|].
  split; [discriminate|]. intros ->. discriminate.
Qed.
Lemma std_dot : forall A (inner : list N -> option (A * list N)) i l, std_sep (chr ".") (S i) inner (bs "." ++ l) = inner l.
Proof. reflexivity. Qed.
Lemma std_dot_inv : forall A (inner : list N -> option (A * list N)) c i l x, std_sep c (S i) inner l = Some x -> exists r, l = c :: r /\ inner r = Some x.
Proof. intros A inner c i l x H. cbn in H. destruct l as [|y r]; [discriminate|]. cbn in H. destruct (N.eqb_spec y c) as [->|]; [eauto|discriminate]. Qed.
Lemma std_ipv4_text : forall a s r, g_ipv4 a s -> hd_not is_ascii_digit r -> std_ipv4 (s ++ r) = Some (a, r).
Proof.
  intros a s r H Hr. destruct H as [a b c d sa sb sc sd Ha Hb Hc Hd]. rewrite <- !app_assoc. unfold std_ipv4.
  rewrite (std_dec3_octet _ Ha) by reflexivity. rewrite std_dot, (std_dec3_octet _ Hb) by reflexivity.
  rewrite std_dot, (std_dec3_octet _ Hc) by reflexivity. now rewrite std_dot, (std_dec3_octet _ Hd).
Qed.
Lemma std_ipv4_inv : forall l a r, std_ipv4 l = Some (a, r) -> exists s, l = s ++ r /\ g_ipv4 a s.
Proof.
  intros l a r H. unfold std_ipv4 in H. destruct (std_dec3 l) as [[a1 l1]|] eqn:E1; [|discriminate].
  destruct (std_sep _ 1 std_dec3 l1) as [[a2 l2]|] eqn:E2; [|discriminate].
  destruct (std_sep _ 2 std_dec3 l2) as [[a3 l3]|] eqn:E3; [|discriminate].
  destruct (std_sep _ 3 std_dec3 l3) as [[a4 l4]|] eqn:E4; [|discriminate]. injection H as <- <-.
  apply std_dot_inv in E2, E3, E4. destruct E2 as (r2 & -> & E2), E3 as (r3 & -> & E3), E4 as (r4 & -> & E4).
  apply std_dec3_inv in E1, E2, E3, E4. destruct E1 as (s1 & -> & O1), E2 as (s2 & -> & O2), E3 as (s3 & -> & O3), E4 as (s4 & -> & O4).
  exists (s1 ++ bs "." ++ s2 ++ bs "." ++ s3 ++ bs "." ++ s4). split; [now rewrite <- !app_assoc|]. now constructor.
Qed.
Lemma std_ipv4_group : forall v s r, group v s -> hd_not is_ascii_hex_digit r -> match r with x :: _ => x <> chr "." | [] => True end ->
  std_ipv4 (s ++ r) = None.
Proof.
  intros v s r H Hr Hd. destruct (std_ipv4 (s ++ r)) as [[a r']|] eqn:E; [|reflexivity]. exfalso. apply std_ipv4_inv in E.
  destruct E as (t & E & Ht). destruct (ipv4_chars Ht) as [_ Hc]. destruct (@prefix_of _ s t r' r Hc) as [u Hu]; [|exact E|].
  - destruct r as [|x r]; [exact I|]. intros [K| ->]; [|now apply Hd]. cbn in Hr.
    assert (is_ascii_hex_digit x = true) by (apply hexdig_iff; unfold digit in K; unfold hexdig; lia). congruence.
  - pose proof (group_no_dot H) as G. rewrite Hu in G. apply Forall_app in G. destruct G as [G _].
    destruct Ht as [a b c d sa sb sc sd _ _ _ _]. apply Forall_app in G. destruct G as [_ G]. apply Forall_inv in G. now apply G.
Qed.
Lemma std_hex4_stop : forall l, hd_not is_ascii_hex_digit l -> std_hex4 l = None.
Proof. intros l H. unfold std_hex4. pose proof (@span_app is_ascii_hex_digit [] l (Forall_nil _) H) as E. cbn [app] in E. now rewrite E. Qed.
Lemma std_ipv4_stop : forall l, hd_not is_ascii_digit l -> std_ipv4 l = None.
Proof.
  intros l H. unfold std_ipv4, std_dec3. pose proof (@span_app is_ascii_digit [] l (Forall_nil _) H) as E. cbn [app] in E. now rewrite E.
Qed.

(** ** Groups *)
(** The groups from the one of index 0 ([first]) or a later one on, each later one preceded by ':'; the flag says that they end in
    an IPv4 address. *)
Definition colon (first : bool) : bytes := if first then [] else bs ":".
Inductive tailg : bool -> list N -> bytes -> bool -> Prop :=
| tg_nil : forall first, tailg first [] [] false
| tg_v4 : forall first a b c d s, g_ipv4 (a, b, c, d) s -> tailg first [a * 256 + b; c * 256 + d]%N (colon first ++ s) true
| tg_cons : forall first v s vs t f, group v s -> tailg false vs t f -> tailg first (v :: vs) (colon first ++ s ++ t) f.
Lemma tailg_more : forall b vs t f, tailg b vs t f -> b = false -> forall us u w g, groups_colon us u -> group w g ->
  right_part (us ++ w :: vs) (u ++ g ++ t) /\ (f = false -> left_part (us ++ w :: vs) (u ++ g ++ t)).
Proof.
  intros b vs t f H. induction H as [b|b a1 a2 a3 a4 s H|b v s vs t f Hv _ IH]; intros -> us u w g Hu Hw.
  - rewrite app_nil_r. assert (K : left_part (us ++ [w]) (u ++ g)) by now constructor. split; [now apply rp_left|auto].
  - split; [|discriminate]. cbn [colon]. change (w :: [a1 * 256 + a2; a3 * 256 + a4]%N) with ([w] ++ [a1 * 256 + a2; a3 * 256 + a4]%N).
    rewrite app_assoc, (app_assoc g), (app_assoc u). apply rp_last; [|now constructor]. apply groups_app; [exact Hu|].
    replace (g ++ bs ":") with (g ++ bs ":" ++ []) by now rewrite app_nil_r. constructor; [exact Hw|constructor].
  - specialize (IH eq_refl (us ++ [w]) (u ++ g ++ bs ":") v s). rewrite <- !app_assoc in IH. cbn [app] in IH. cbn [colon].
    apply IH; [|exact Hv]. apply groups_app; [exact Hu|]. replace (g ++ bs ":") with (g ++ bs ":" ++ []) by now rewrite app_nil_r.
    constructor; [exact Hw|constructor].
Qed.
Lemma tailg_parts : forall vs t f, tailg true vs t f -> right_part vs t /\ (f = false -> left_part vs t).
Proof.
  intros vs t f H. inv H.
  - split; [apply rp_left; constructor|constructor].
  - split; [|discriminate]. cbn [colon app]. change [a * 256 + b; c * 256 + d]%N with ([] ++ [a * 256 + b; c * 256 + d]%N).
    change s with ([] ++ s). apply rp_last; constructor. assumption.
  - cbn [colon app]. match goal with T : tailg false _ _ _, G : group _ _ |- _ => exact (tailg_more T eq_refl gc_nil G) end.
Qed.
Lemma groups_tailg : forall us u, groups_colon us u -> forall first vs t f, tailg true vs t f -> vs <> [] ->
  tailg first (us ++ vs) (colon first ++ u ++ t) f.
Proof.
  intros us u H. induction H as [|v s us u Hv _ IH]; intros first vs t f T Hne.
  - cbn [app]. remember true as b eqn:Eb. destruct T as [b|b a1 a2 a3 a4 s K|b v s vs t f Hv T]; [congruence| |]; subst b; cbn [colon app].
    + now apply tg_v4.
    + now apply tg_cons.
  - cbn [app]. rewrite <- !app_assoc. constructor; [exact Hv|]. exact (IH false vs t f T Hne).
Qed.
Lemma right_tailg : forall vs t, right_part vs t -> exists f, tailg true vs t f.
Proof.
  intros vs t H. apply right_shape_of in H. destruct H as [|vs t v s H K|vs t a b c d s H K].
  - exists false. constructor.
  - exists false. apply (@groups_tailg vs t H true [v] s false); [|discriminate]. rewrite <- (app_nil_r s). apply (@tg_cons true); [exact K|constructor].
  - exists true. apply (@groups_tailg vs t H true _ s true); [|discriminate]. now apply (@tg_v4 true).
Qed.
Lemma left_tailg : forall vs t, left_part vs t -> tailg true vs t false.
Proof.
  intros vs t H. destruct H as [|vs t v s H K]; [constructor|].
  apply (@groups_tailg vs t H true [v] s false); [|discriminate]. rewrite <- (app_nil_r s). apply (@tg_cons true); [exact K|constructor].
Qed.

Lemma std_sep_first : forall A c (inner : list N -> option (A * list N)) i l, std_sep c i inner (match i with O => [] | S _ => [c] end ++ l) = inner l.
Proof. intros A c inner [|i] l; [reflexivity|]. cbn. now rewrite N.eqb_refl. Qed.
Definition first_of (i : nat) : bool := match i with O => true | S _ => false end.
Lemma colon_first : forall i, colon (first_of i) = match i with O => [] | S _ => [chr ":"] end.
Proof. now intros [|i]. Qed.
Lemma std_sep_inv : forall A (inner : list N -> option (A * list N)) i l x, std_sep (chr ":") i inner l = Some x ->
  exists r, l = colon (first_of i) ++ r /\ inner r = Some x.
Proof. intros A inner [|i] l x H; [exists l; now split|]. apply std_dot_inv in H. exact H. Qed.
Lemma std_groups_sound : forall n i l vs f r, std_groups n i l = (vs, f, r) ->
  exists t, l = t ++ r /\ tailg (first_of i) vs t f /\ length vs <= n.
Proof.
  induction n as [|n IH]; intros i l vs f r H.
  - inv H. exists []. repeat split; [constructor|cbn; lia].
  - cbn [std_groups] in H.
    assert (K : match std_sep (chr ":") i std_hex4 l with
          | Some (g, r) => let '(gs, v4, r') := std_groups n (S i) r in (g :: gs, v4, r')
          | None => ([], false, l)
          end = (vs, f, r) -> exists t, l = t ++ r /\ tailg (first_of i) vs t f /\ length vs <= S n).
    { clear H. intros H. destruct (std_sep (chr ":") i std_hex4 l) as [[g r1]|] eqn:E.
      - destruct (std_groups n (S i) r1) as [[gs v4] r2] eqn:E2. injection H as <- <- <-. apply IH in E2.
        destruct E2 as (t & -> & T & L). apply std_sep_inv in E. destruct E as (r3 & -> & E). apply std_hex4_inv in E. destruct E as (s & -> & G).
        exists (colon (first_of i) ++ s ++ t). split; [now rewrite <- !app_assoc|]. split; [now constructor|cbn; lia].
      - injection H as <- <- <-. exists []. repeat split; [constructor|cbn; lia]. }
    destruct n as [|n]; [exact (K H)|]. destruct (std_sep (chr ":") i std_ipv4 l) as [[[[[a b] c] d] r1]|] eqn:E; [|exact (K H)].
    injection H as <- <- <-. apply std_sep_inv in E. destruct E as (r3 & -> & E). apply std_ipv4_inv in E. destruct E as (s & -> & G).
    exists (colon (first_of i) ++ s). split; [now rewrite <- app_assoc|]. split; [now constructor|cbn; lia].
Qed.
(** What may follow: the end or '::'. *)
Definition ends (r : list N) : Prop := r = [] \/ exists r', r = bs "::" ++ r'.
Lemma ends_hd : forall f r, ends r -> f (chr ":") = false -> hd_not f r.
Proof. intros f r [-> |[r' ->]] H; [exact I|exact H]. Qed.
Lemma std_groups_complete : forall first vs t f, tailg first vs t f -> forall n i r, first = first_of i -> length vs <= n -> ends r ->
  std_groups n i (t ++ r) = (vs, f, r).
Proof.
  intros first vs t f H. induction H as [b|b a1 a2 a3 a4 s H|b v s vs t f Hv T IH]; intros n i r -> L Hr.
  - destruct n as [|n]; [reflexivity|]. cbn [std_groups app].
    assert (K : forall A (inner : list N -> option (A * list N)), (forall l, hd_not is_ascii_hex_digit l -> inner l = None) ->
       std_sep (chr ":") i inner r = None).
    { intros A inner Hi. destruct i as [|i]; [cbn; apply Hi; now apply ends_hd|]. cbn. destruct Hr as [-> |[r' ->]]; [reflexivity|].
      cbn. apply Hi. reflexivity. }
    rewrite (K _ std_hex4 std_hex4_stop). destruct n as [|n]; [reflexivity|]. rewrite (K _ std_ipv4); [reflexivity|].
    intros l Hl. apply std_ipv4_stop. destruct l as [|x l]; [exact I|]. cbn in *. destruct (is_ascii_digit x) eqn:E; [|reflexivity].
    apply digit_iff in E. assert (is_ascii_hex_digit x = true) by (apply hexdig_iff; unfold digit in E; unfold hexdig; lia). congruence.
  - cbn in L. destruct n as [|[|n]]; [lia|lia|]. cbn [std_groups]. rewrite <- app_assoc, colon_first, std_sep_first.
    rewrite (std_ipv4_text _ H); [reflexivity|]. now apply ends_hd.
  - cbn in L. destruct n as [|n]; [lia|]. cbn [std_groups]. rewrite <- !app_assoc, colon_first, !std_sep_first.
    assert (Hh : hd_not is_ascii_hex_digit (t ++ r)) by (inv T; [now apply ends_hd|reflexivity|reflexivity]).
    assert (Hd : match t ++ r with x :: _ => x <> chr "." | [] => True end).
    { inv T; [|discriminate|discriminate]. destruct Hr as [-> |[r' ->]]; [exact I|discriminate]. }
    rewrite (std_ipv4_group _ Hv Hh Hd), (std_hex4_group _ Hv Hh), (IH n (S i) r eq_refl ltac:(lia) Hr). now destruct n.
Qed.
(** ** Parsing *)
(** The texts of RFC 4291 and no others. *)
Lemma std_v6_complete : forall a s, ipv6_text a s -> std_v6_parse s = inl a.
Proof.
  intros a s H. unfold std_v6_parse. destruct H as [vs s H L|ls s rs t HL HR HN].
  - destruct (right_tailg H) as [f T]. pose proof (@std_groups_complete true vs s f T 8 0 [] eq_refl ltac:(lia) (or_introl eq_refl)) as E.
    rewrite app_nil_r in E. rewrite E, L. reflexivity.
  - apply left_tailg in HL. destruct (right_tailg HR) as [f T].
    rewrite (@std_groups_complete true ls s false HL 8 0 (bs "::" ++ t) eq_refl ltac:(lia)) by (right; eauto).
    destruct (Nat.eqb_spec (length ls) 8); [lia|].
    change (std_char (chr ":") (bs "::" ++ t)) with (Some (bs ":" ++ t)). cbv iota beta.
    change (std_char (chr ":") (bs ":" ++ t)) with (Some t). cbv iota beta.
    pose proof (@std_groups_complete true rs t f T (8 - (length ls + 1)) 0 [] eq_refl ltac:(lia) (or_introl eq_refl)) as E.
    rewrite app_nil_r in E. rewrite E. reflexivity.
Qed.
Lemma std_v6_sound : forall a s, std_v6_parse s = inl a -> ipv6_text a s.
Proof.
  intros a s H. unfold std_v6_parse in H. destruct (std_groups 8 0 s) as [[head v4] r] eqn:E. apply std_groups_sound in E.
  destruct E as (t & -> & T & L). apply tailg_parts in T. destruct T as [T1 T2]. destruct (Nat.eqb_spec (length head) 8) as [E8|E8].
  - destruct r; [|discriminate]. injection H as <-. rewrite app_nil_r. now apply t6_full.
  - destruct v4; [discriminate|]. specialize (T2 eq_refl). destruct (std_char (chr ":") r) as [r1|] eqn:E1; [|discriminate].
    destruct (std_char (chr ":") r1) as [r2|] eqn:E2; [|discriminate].
    assert (r = bs "::" ++ r2) as ->.
    { unfold std_char in E1, E2. destruct r as [|x r]; [discriminate|]. destruct (N.eqb_spec x (chr ":")) as [->|]; [|discriminate]. injection E1 as ->.
      destruct r1 as [|x r1]; [discriminate|]. destruct (N.eqb_spec x (chr ":")) as [->|]; [|discriminate]. now injection E2 as ->. }
    destruct (std_groups (8 - (length head + 1)) 0 r2) as [[tail v4'] r3] eqn:E3. apply std_groups_sound in E3.
    destruct E3 as (t3 & -> & T3 & L3). apply tailg_parts in T3. destruct r3; [|discriminate]. injection H as <-. rewrite app_nil_r.
    apply t6_short; [exact T2|apply T3|lia].
Qed.

(** ** Printing *)
Lemma hex_char_ok : forall d, (d < 16)%N -> hexdig (hex_char d) /\ hex_digit_value (hex_char d) = d.
Proof.
  intros d H. unfold hex_char. destruct (N.ltb_spec d 10); (split; [unfold hexdig; lia|]); unfold hex_digit_value, in_range.
  - destruct (N.leb_spec 48 (48 + d)), (N.leb_spec (48 + d) 57); try lia. cbn [andb]. lia.
  - destruct (N.leb_spec (87 + d) 57); [lia|]. rewrite andb_false_r. destruct (N.leb_spec 97 (87 + d)), (N.leb_spec (87 + d) 102); try lia.
    cbn [andb]. lia.
Qed.
Lemma show_hex_group : forall v, (v < 65536)%N -> group v (show_hex v).
Proof.
  intros v H. unfold show_hex.
  assert (M : forall x, (x mod 16 < 16)%N) by (intros x; apply N.mod_lt; lia).
  destruct (N.ltb_spec v 16); [|destruct (N.ltb_spec v 256); [|destruct (N.ltb_spec v 4096)]].
  - pose proof (hex_char_ok (d := v) ltac:(lia)) as [A1 A2]. split; [repeat (apply Forall_cons; [assumption|]); apply Forall_nil|]. split; [cbn; lia|].
    unfold hex_value. cbn [fold_left]. rewrite A2. lia.
  - assert (v / 16 < 16)%N by (apply N.div_lt_upper_bound; lia).
    pose proof (@hex_char_ok (v / 16) ltac:(lia)) as [A1 A2]. pose proof (@hex_char_ok (v mod 16) (M v)) as [B1 B2].
    split; [repeat (apply Forall_cons; [assumption|]); apply Forall_nil|]. split; [cbn; lia|].
    unfold hex_value. cbn [fold_left]. rewrite A2, B2. pose proof (N.div_mod v 16 ltac:(lia)). lia.
  - assert (v / 256 < 16)%N by (apply N.div_lt_upper_bound; lia).
    pose proof (@hex_char_ok (v / 256) ltac:(lia)) as [A1 A2]. pose proof (@hex_char_ok (v mod 16) (M v)) as [B1 B2].
    pose proof (@hex_char_ok (v / 16 mod 16) (M _)) as [C1 C2].
    split; [repeat (apply Forall_cons; [assumption|]); apply Forall_nil|]. split; [cbn; lia|].
    unfold hex_value. cbn [fold_left]. rewrite A2, B2, C2. pose proof (N.div_mod v 16 ltac:(lia)). pose proof (N.div_mod (v / 16) 16 ltac:(lia)) as D.
    rewrite N.div_div in D by lia. change (16 * 16)%N with 256%N in D. lia.
  - assert (v / 4096 < 16)%N by (apply N.div_lt_upper_bound; lia).
    pose proof (@hex_char_ok (v / 4096) ltac:(lia)) as [A1 A2]. pose proof (@hex_char_ok (v mod 16) (M v)) as [B1 B2].
    pose proof (@hex_char_ok (v / 16 mod 16) (M _)) as [C1 C2]. pose proof (@hex_char_ok (v / 256 mod 16) (M _)) as [E1 E2].
    split; [repeat (apply Forall_cons; [assumption|]); apply Forall_nil|]. split; [cbn; lia|].
    unfold hex_value. cbn [fold_left]. rewrite A2, B2, C2, E2. pose proof (N.div_mod v 16 ltac:(lia)). pose proof (N.div_mod (v / 16) 16 ltac:(lia)) as D.
    rewrite N.div_div in D by lia. change (16 * 16)%N with 256%N in D. pose proof (N.div_mod (v / 256) 16 ltac:(lia)) as F.
    rewrite N.div_div in F by lia. change (256 * 16)%N with 4096%N in F. lia.
Qed.
Definition segment (v : N) : Prop := (v < 65536)%N.
Lemma show_groups_left : forall l, Forall segment l -> left_part l (show_groups l).
Proof.
  intros l H. destruct H as [|v l Hv H]; [constructor|]. unfold show_groups.
  enough (T : forall l, Forall segment l -> tailg false l (flat_map (fun w => bs ":" ++ show_hex w) l) false).
  { apply (@tailg_more false l _ false (T l H) eq_refl [] [] v (show_hex v)); [constructor|now apply show_hex_group|reflexivity]. }
  clear. intros l H. induction H as [|v l Hv _ IH]; [constructor|]. cbn [flat_map]. rewrite <- app_assoc.
  apply (@tg_cons false); [now apply show_hex_group|exact IH].
Qed.
Lemma skip_skip : forall A (a : list A) n m, skipn m (skipn n a) = skipn (n + m) a.
Proof. intros A a n m. revert a. induction n as [|n IH]; intros a; [reflexivity|]. destruct a as [|x a]; [now destruct m|]. cbn. apply IH. Qed.
(** The run found consists of zero segments. *)
Lemma zero_run_zeros : forall a, let '(start, len) := zero_run a in
  start + len <= length a /\ firstn len (skipn start a) = repeat 0%N len.
Proof.
  assert (G : forall post pre l c, let '(ls, ll) := l in let '(cs, cl) := c in
     (ls + ll <= length pre /\ firstn ll (skipn ls pre) = repeat 0%N ll) ->
     (cl = 0 \/ (cs + cl = length pre /\ skipn cs pre = repeat 0%N cl)) ->
     let '(rs, rl) := snd (fst (fold_left run_step post (length pre, (ls, ll), (cs, cl)))) in
     rs + rl <= length (pre ++ post) /\ firstn rl (skipn rs (pre ++ post)) = repeat 0%N rl).
  { induction post as [|x post IH]; intros pre [ls ll] [cs cl] [H1 H2] Hc.
    - cbn [fold_left fst snd]. rewrite app_nil_r. now split.
    - cbn [fold_left]. replace (pre ++ x :: post) with ((pre ++ [x]) ++ post) by now rewrite <- app_assoc.
      assert (El : length (pre ++ [x]) = S (length pre)) by (rewrite app_length; cbn; lia).
      assert (Hl : ls + ll <= length (pre ++ [x]) /\ firstn ll (skipn ls (pre ++ [x])) = repeat 0%N ll).
      { split; [lia|]. rewrite skipn_app, firstn_app. replace (ll - length (skipn ls pre)) with 0 by (rewrite skipn_length; lia).
        cbn. now rewrite app_nil_r. }
      unfold run_step at 2. destruct (N.eqb_spec x 0) as [->|Hx].
      + set (cs' := if cl =? 0 then length pre else cs).
        assert (Hc' : cs' + S cl = length (pre ++ [0%N]) /\ skipn cs' (pre ++ [0%N]) = repeat 0%N (S cl)).
        { unfold cs'. destruct (Nat.eqb_spec cl 0) as [->|Hcl].
          - split; [lia|]. rewrite skipn_app, skipn_all, Nat.sub_diag. reflexivity.
          - destruct Hc as [Hc|[Hc1 Hc2]]; [lia|]. split; [lia|]. rewrite skipn_app, Hc2. replace (cs - length pre) with 0 by lia.
            cbn [skipn]. change [0%N] with (repeat 0%N 1). rewrite <- repeat_app. f_equal. lia. }
        cbn [snd]. rewrite <- El. destruct (Nat.ltb_spec ll (S cl)) as [K|K].
        * apply (IH (pre ++ [0%N]) (cs', S cl) (cs', S cl)); [|now right]. split; [lia|]. rewrite (proj2 Hc').
          rewrite firstn_all2; [reflexivity|]. rewrite repeat_length. lia.
        * apply (IH (pre ++ [0%N]) (ls, ll) (cs', S cl)); [exact Hl|now right].
      + rewrite <- El. apply (IH (pre ++ [x]) (ls, ll) (0, 0)); [exact Hl|now left]. }
  intros a. apply (G a [] (0, 0) (0, 0)); [|now left]. split; [cbn; lia|reflexivity].
Qed.
Lemma v4_mapped_inv : forall a x y, v4_mapped a = Some (x, y) -> a = [0; 0; 0; 0; 0; 65535; x; y]%N.
Proof.
  intros a x y H. unfold v4_mapped in H.
  destruct a as [|s0 [|s1 [|s2 [|s3 [|s4 [|s5 [|s6 [|s7 [|s8 a]]]]]]]]]; try discriminate.
  cbn [forallb] in H. destruct (N.eqb_spec 0 s0); [|discriminate]. destruct (N.eqb_spec 0 s1); [|discriminate].
  destruct (N.eqb_spec 0 s2); [|discriminate]. destruct (N.eqb_spec 0 s3); [|discriminate]. destruct (N.eqb_spec 0 s4); [|discriminate].
  destruct (N.eqb_spec s5 65535); [|discriminate]. cbn in H. injection H as <- <-. now subst.
Qed.
Lemma show_dec_octet : forall v, (v <= 255)%N -> octet v (show_dec v).
Proof. intros v H. split; [apply show_dec_canonical|]. split; [apply show_dec_value|exact H]. Qed.
Lemma halves : forall x, segment x -> (x / 256 <= 255)%N /\ (x mod 256 <= 255)%N /\ (x / 256 * 256 + x mod 256 = x)%N.
Proof.
  unfold segment. intros x H. pose proof (N.mod_lt x 256 ltac:(lia)). pose proof (N.div_mod x 256 ltac:(lia)).
  assert (x / 256 < 256)%N by (apply N.div_lt_upper_bound; lia). lia.
Qed.
(** Seven groups and '::' have eight colons. *)
Definition colons (s : bytes) : nat := count_occ N.eq_dec s (chr ":").
Lemma colons_app : forall s t, colons (s ++ t) = colons s + colons t.
Proof. intros s t. apply count_occ_app. Qed.
Lemma no_colons : forall s, Forall (fun x => x <> chr ":") s -> colons s = 0.
Proof. intros s H. apply count_occ_not_In. intros K. rewrite Forall_forall in H. now apply (H _ K). Qed.
Lemma group_colons : forall v s, group v s -> colons s = 0.
Proof. intros v s (H & _). apply no_colons. eapply Forall_impl; [|exact H]. intros x. apply hex_not_colon. Qed.
Lemma ipv4_no_colon : forall a s, g_ipv4 a s -> Forall (fun x => x <> chr ":") s.
Proof.
  intros a s H. destruct (ipv4_chars H) as [_ K]. eapply Forall_impl; [|exact K]. cbv beta. intros x [D| ->]; [|discriminate].
  intros ->. unfold digit in D. cbn in D. lia.
Qed.
Lemma groups_colons : forall vs s, groups_colon vs s -> colons s = length vs.
Proof.
  intros vs s H. induction H as [|v s vs t H _ IH]; [reflexivity|]. unfold colons in *. rewrite !count_occ_app.
  pose proof (group_colons H) as G. unfold colons in G. rewrite G, IH. reflexivity.
Qed.
Lemma left_colons : forall vs s, left_part vs s -> colons s = pred (length vs).
Proof.
  intros vs s H. destruct H as [|vs t v s H K]; [reflexivity|]. unfold colons. rewrite count_occ_app.
  fold (colons t) (colons s). rewrite (groups_colons H), (group_colons K), app_length. cbn. lia.
Qed.
Lemma few_colons : forall s, colons s < 8 -> ~ seven_colons s.
Proof.
  intros s H (ls & t & K1 & K2 & ->). unfold colons in H. rewrite count_occ_app in H. fold (colons t) (colons (bs "::")) in H.
  rewrite (left_colons K1), K2 in H. change (colons (bs "::")) with 2 in H. lia.
Qed.
(** The printed address is a text of RFC 4291 that the crate accepts. *)
Lemma std_show_text : forall a, length a = 8 -> Forall segment a -> v6_text a (std_v6_show a).
Proof.
  intros a L H. unfold std_v6_show. destruct (v4_mapped a) as [[x y]|] eqn:E.
  - apply v4_mapped_inv in E. subst a. repeat match goal with K : Forall _ (_ :: _) |- _ => apply Forall_cons_iff in K; destruct K end.
    match goal with X : segment x, Y : segment y |- _ => destruct (halves X) as (X1 & X2 & X3), (halves Y) as (Y1 & Y2 & Y3) end. split.
    + assert (G : g_ipv4 (x / 256, x mod 256, y / 256, y mod 256)%N (show_ipv4 (x / 256, x mod 256, y / 256, y mod 256)%N))
        by (constructor; now apply show_dec_octet).
      pose proof (@t6_short [] [] ([65535%N] ++ [x; y]) (bs "ffff:" ++ show_ipv4 (x / 256, x mod 256, y / 256, y mod 256)%N)) as T.
      cbn [List.length app Nat.sub Nat.add repeat] in T. apply T; [constructor| |lia].
      change [65535%N; x; y] with ([65535%N] ++ [x; y]). apply rp_last.
      * change (bs "ffff:") with (bs "ffff" ++ bs ":" ++ []). constructor; [|constructor]. split; [|split; [cbn; lia|reflexivity]].
        repeat (constructor; [unfold hexdig; cbn; lia|]). constructor.
      * pose proof (l32_ipv4 G) as Q. rewrite X3, Y3 in Q. exact Q.
    + apply few_colons. rewrite colons_app. change (colons (bs "::ffff:")) with 3.
      rewrite no_colons; [lia|]. apply (@ipv4_no_colon (x / 256, x mod 256, y / 256, y mod 256)%N). constructor; now apply show_dec_octet.
  - pose proof (zero_run_zeros a) as Z. destruct (zero_run a) as [start len]. destruct Z as [Z1 Z2].
    destruct (Nat.ltb_spec 1 len) as [K|K].
    + set (l := firstn start a) in *. set (r := skipn (start + len) a).
      assert (Ea : a = l ++ repeat 0%N len ++ r).
      { unfold l, r. rewrite <- Z2. rewrite <- (firstn_skipn start a) at 1. f_equal. rewrite <- (firstn_skipn len (skipn start a)) at 1. f_equal.
        apply skip_skip. }
      assert (Ll : length l = start) by (unfold l; rewrite firstn_length; lia).
      assert (Lr : length r = 8 - start - len) by (unfold r; rewrite skipn_length; lia).
      rewrite Ea in H. apply Forall_app in H. destruct H as [Hl H]. apply Forall_app in H. destruct H as [_ Hr].
      pose proof (show_groups_left Hl) as Tl. pose proof (show_groups_left Hr) as Tr. split.
      * rewrite Ea. replace len with (8 - length l - length r) at 1 by lia. apply t6_short; [exact Tl|now apply rp_left|lia].
      * apply few_colons. rewrite !colons_app. rewrite (left_colons Tl), (left_colons Tr). change (colons (bs "::")) with 2. lia.
    + pose proof (show_groups_left H) as T. split; [apply t6_full; [now apply rp_left|exact L]|].
      apply few_colons. rewrite (left_colons T). lia.
Qed.
